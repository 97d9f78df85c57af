(** Generated by tools/gen.py from ProjectionProps.v: property theorems only. *)
From Verif Require Import Prelude NdArr Grids_model Spec Boundaries_model FD_model PRep FDProofs FDProps WallBC WallBCProps ImposeProps WallFD Pressure_model PressureProps WallFDProps.
From Verif Require Import ProjectionProps.
Local Open Scope Z_scope.
Set Implicit Arguments.

(** C57. In a box with periodic axes or walls, projection leaves a velocity whose divergence is zero exactly as it is (so projecting twice is projecting once), whatever solution q of the Poisson equation the solver returns. *)
Theorem projection_fixes_divergence_free : forall g per v solve q pb dv lq,
  (0 < gndim g)%nat -> wfg g -> box_velocity g per v ->
  pressure_bc_from_velocity v = Ok pb -> (forall q0, solve v q0 pb = Ok q) ->
  wf_garr q -> ggrid q = g -> off_eq (goff q) (repeat (1 # 2)%Q (gndim g)) ->
  divergence v = Ok dv -> (forall ix, inb (gshape g) ix -> get (gdata dv) ix = 0%R) ->
  laplacian (mkgv q pb) = Ok lq -> (forall ix, inb (gshape g) ix -> get (gdata lq) ix = get (gdata dv) ix) ->
  exists v', projection solve v = Ok v' /\ Forall2 (fun u u' => same_field (garray u') (garray u) /\ gbc u' = gbc u) v v'.
Proof. exact (@projection_fixes_divergence_free_lem). Qed.
Print Assumptions projection_fixes_divergence_free.

(** C57. In a box with periodic axes or impermeable walls (zero normal wall velocity), projection splits the velocity orthogonally: the sum of squares of v is that of the projected velocity plus that of the difference; so projection never increases kinetic energy. *)
Theorem projection_pythagoras : forall g per v solve q pb dv lq,
  (0 < gndim g)%nat -> wfg g -> box_velocity g per v -> impermeable per v ->
  pressure_bc_from_velocity v = Ok pb -> (forall q0, solve v q0 pb = Ok q) ->
  wf_garr q -> ggrid q = g -> off_eq (goff q) (repeat (1 # 2)%Q (gndim g)) ->
  divergence v = Ok dv -> laplacian (mkgv q pb) = Ok lq ->
  (forall ix, inb (gshape g) ix -> get (gdata lq) ix = get (gdata dv) ix) ->
  exists v', projection solve v = Ok v' /\
    kinetic g (velocity_at v) = (kinetic g (velocity_at v') + kinetic g (fun i ix => velocity_at v i ix - velocity_at v' i ix))%R /\
    (kinetic g (velocity_at v') <= kinetic g (velocity_at v))%R.
Proof. exact (@projection_pythagoras_lem). Qed.
Print Assumptions projection_pythagoras.

(** The hypotheses are met by a concrete case. *)
Example projection_pythagoras_ex :
  (0 < gndim prg)%nat /\ wfg prg /\ box_velocity prg chper chv /\ impermeable chper chv /\
  pressure_bc_from_velocity chv = Ok chpb /\ wf_garr chq /\ off_eq (goff chq) (repeat (1 # 2)%Q (gndim prg)) /\
  exists dv lq, divergence chv = Ok dv /\ laplacian (mkgv chq chpb) = Ok lq /\ get (gdata dv) [0; 0] = 1%R /\
    forall ix, inb (gshape prg) ix -> get (gdata lq) ix = get (gdata dv) ix.
Proof. exact (@projection_pythagoras_ex_lem). Qed.

(** The hypotheses are met by a concrete case. *)
Example projection_fixes_divergence_free_ex :
  (0 < gndim prg)%nat /\ wfg prg /\ box_velocity prg chper chv0 /\
  pressure_bc_from_velocity chv0 = Ok chpb /\ wf_garr chq0 /\ off_eq (goff chq0) (repeat (1 # 2)%Q (gndim prg)) /\
  exists dv lq, divergence chv0 = Ok dv /\ laplacian (mkgv chq0 chpb) = Ok lq /\
    (forall ix, inb (gshape prg) ix -> get (gdata dv) ix = 0%R) /\
    forall ix, inb (gshape prg) ix -> get (gdata lq) ix = get (gdata dv) ix.
Proof. exact (@projection_fixes_divergence_free_ex_lem). Qed.
