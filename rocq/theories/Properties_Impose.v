(** Generated by tools/gen.py from ImposeProps.v: property theorems only. *)
From Verif Require Import Prelude NdArr Grids_model Spec Boundaries_model BoundariesPeriodic WallBC PRep PeriodicBCProps WallBCProps.
From Verif Require Import ImposeProps.
Local Open Scope Z_scope.
Set Implicit Arguments.

(** C09. impose_bc on data that on every axis is periodic, cell-centred or edge-aligned between Dirichlet walls returns a variable with the same grid, offset, shape and boundary conditions; entries on no wall are unchanged; an entry on a wall gets the value prescribed by that wall (where walls of several axes meet, by the last such axis). *)
Theorem impose_bc_sets_wall_entries : forall b u,
  wf_garr u -> length (btypes b) = gndim (ggrid u) ->
  (forall a, (a < gndim (ggrid u))%nat -> regular_axis b u a) ->
  exists r, impose_bc b u = Ok (mkgv r b) /\ ggrid r = ggrid u /\ off_eq (goff r) (goff u) /\
    shp (gdata r) = gshape (ggrid u) /\
    forall ix, inb (gshape (ggrid u)) ix ->
      ((forall a, (a < gndim (ggrid u))%nat -> wall_value b u a ix = None) -> get (gdata r) ix = get (gdata u) ix) /\
      (forall a v, (a < gndim (ggrid u))%nat -> wall_value b u a ix = Some v ->
         (forall a', (a < a' < gndim (ggrid u))%nat -> wall_value b u a' ix = None) -> get (gdata r) ix = v).
Proof. exact (@impose_bc_sets_wall_entries_lem). Qed.
Print Assumptions impose_bc_sets_wall_entries.

(** The hypotheses are met by a concrete case. *)
Example impose_bc_sets_wall_entries_ex :
  exists r, impose_bc (exb Dirichlet Dirichlet) exv = Ok (mkgv r (exb Dirichlet Dirichlet)) /\
    get (gdata r) (ix2 1 2) = 7%R /\ get (gdata r) (ix2 1 1) = 11%R.
Proof. exact (@impose_bc_sets_wall_entries_ex_lem). Qed.

(** C09. Without an edge-aligned Dirichlet axis (everything periodic or cell-centred) impose_bc changes nothing. *)
Theorem impose_bc_no_walls : forall b u,
  wf_garr u -> length (btypes b) = gndim (ggrid u) ->
  (forall a, (a < gndim (ggrid u))%nat -> periodic_axis b a \/ centred u a) ->
  exists r, impose_bc b u = Ok (mkgv r b) /\ same_field r u.
Proof. exact (@impose_bc_no_walls_lem). Qed.
Print Assumptions impose_bc_no_walls.

(** The hypotheses are met by a concrete case. *)
Example impose_bc_no_walls_ex :
  wf_garr exu /\ length (btypes (exb Dirichlet Neumann)) = gndim (ggrid exu) /\
  (forall a, (a < gndim (ggrid exu))%nat -> periodic_axis (exb Dirichlet Neumann) a \/ centred exu a).
Proof. exact (@impose_bc_no_walls_ex_lem). Qed.

(** C09. impose_bc is idempotent: applied to its own result it returns the same field. *)
Theorem impose_bc_idempotent : forall b u,
  wf_garr u -> length (btypes b) = gndim (ggrid u) ->
  (forall a, (a < gndim (ggrid u))%nat -> regular_axis b u a) ->
  exists r r2, impose_bc b u = Ok (mkgv r b) /\ impose_bc b r = Ok (mkgv r2 b) /\ same_field r2 r.
Proof. exact (@impose_bc_idempotent_lem). Qed.
Print Assumptions impose_bc_idempotent.

(** The hypotheses are met by a concrete case. *)
Example impose_bc_idempotent_ex :
  wf_garr exv /\ length (btypes (exb Dirichlet Dirichlet)) = gndim (ggrid exv) /\
  (forall a, (a < gndim (ggrid exv))%nat -> regular_axis (exb Dirichlet Dirichlet) exv a).
Proof. exact (@impose_bc_idempotent_ex_lem). Qed.
