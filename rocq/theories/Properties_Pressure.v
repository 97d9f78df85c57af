(** Generated by tools/gen.py from PressureProps.v: property theorems only. *)
From Verif Require Import Prelude NdArr Grids_model Spec Boundaries_model BoundariesPeriodic FD_model PRep FDProofs FDProps WallBC WallBCProps ImposeProps Pressure_model.
From Verif Require Import PressureProps.
Set Implicit Arguments.

(** C19. For a staggered periodic velocity on any grid, if the pressure solver returns (whatever starting guess it is given) a field q whose laplacian is the divergence of v, then projection returns a velocity with the same grid, offsets and boundary conditions whose divergence is zero in every cell. *)
Theorem projection_divergence_free : forall g o v solve q b dv lq,
  wfg g -> (0 < gndim g)%nat -> periodic_vec g v -> length o = gndim g -> face_aligned o v ->
  (forall b q0, perbc g b -> solve v q0 b = Ok q) -> wf_garr q -> ggrid q = g -> off_eq (goff q) o ->
  perbc g b -> divergence v = Ok dv -> laplacian (mkgv q b) = Ok lq -> aeq (gdata lq) (gdata dv) ->
  exists v' d, projection solve v = Ok v' /\ periodic_vec g v' /\ face_aligned o v' /\
    (forall i u u', nth_error v i = Some u -> nth_error v' i = Some u' -> gbc u' = gbc u) /\
    divergence v' = Ok d /\ is_field d g o (fun _ => 0%R).
Proof. exact (@projection_divergence_free_lem). Qed.
Print Assumptions projection_divergence_free.

(** The hypotheses are met by a concrete case. *)
Example projection_divergence_free_ex :
  exists dv lq, divergence prv = Ok dv /\ laplacian (mkgv prq (periodic_bc 2)) = Ok lq /\ aeq (gdata lq) (gdata dv) /\
    get (gdata dv) [0%Z; 0%Z] = 1%R /\
  exists v' d, projection (fun _ _ _ => Ok prq) prv = Ok v' /\ divergence v' = Ok d /\ get (gdata d) [0%Z; 0%Z] = 0%R.
Proof. exact (@projection_divergence_free_ex_lem). Qed.

(** C19. If the solver returns a constant pressure, projection returns the velocity unchanged (so with a solver that returns constants for zero right-hand sides, divergence-free fields are fixed points). *)
Theorem projection_constant_pressure : forall g o v solve q c,
  wfg g -> (0 < gndim g)%nat -> periodic_vec g v -> length o = gndim g -> face_aligned o v ->
  (forall b q0, perbc g b -> solve v q0 b = Ok q) -> wf_garr q -> ggrid q = g -> off_eq (goff q) o ->
  (forall ix, inb (gshape g) ix -> get (gdata q) ix = c) ->
  exists v', projection solve v = Ok v' /\ Forall2 (fun u u' => same_field (garray u') (garray u) /\ gbc u' = gbc u) v v'.
Proof. exact (@projection_constant_pressure_lem). Qed.
Print Assumptions projection_constant_pressure.

(** The hypotheses are met by a concrete case. *)
Example projection_constant_pressure_ex :
  exists v', projection (fun _ _ _ => Ok (mkga (afull [2%nat; 2%nat] 4%R) [(1 # 2)%Q; (1 # 2)%Q] prg)) prv = Ok v' /\
    Forall2 (fun u u' => same_field (garray u') (garray u) /\ gbc u' = gbc u) prv v'.
Proof. exact (@projection_constant_pressure_ex_lem). Qed.
