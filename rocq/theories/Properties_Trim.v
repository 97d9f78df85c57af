(** Generated by tools/gen.py from TrimProps.v: property theorems only. *)
From Verif Require Import Prelude NdArr Grids_model Spec Boundaries_model BoundariesPeriodic WallBC PRep PeriodicBCProps WallBCProps ImposeProps.
From Verif Require Import TrimProps.
Local Open Scope Z_scope.
Set Implicit Arguments.

(** C11. For data that on every axis is periodic with offset in [0,1), cell-centred between walls, or edge-aligned between Dirichlet walls: after any sequence of pads (any axes, widths on either side, any modes) that succeeds, trim_boundary returns exactly what it returns for the array before padding. *)
Theorem trim_boundary_undoes_padding : forall b u h w,
  wf_garr u -> (forall a, (a < gndim (ggrid u))%nat -> trimmable_axis b u a) ->
  Forall (fun op => (fst (fst op) < gndim (ggrid u))%nat) h ->
  foldM (fun v op => bc_pad b v (snd (fst op)) (fst (fst op)) (snd op)) u h = Ok w ->
  exists t t', trim_boundary b w = Ok t /\ trim_boundary b u = Ok t' /\ same_field t t'.
Proof. exact (@trim_boundary_undoes_padding_lem). Qed.
Print Assumptions trim_boundary_undoes_padding.

(** The hypotheses are met by a concrete case. *)
Example trim_boundary_undoes_padding_ex :
  exists w, wf_garr exv /\ (forall a, (a < gndim (ggrid exv))%nat -> trimmable_axis (exb Dirichlet Dirichlet) exv a) /\
  foldM (fun v op => bc_pad (exb Dirichlet Dirichlet) v (snd (fst op)) (fst (fst op)) (snd op)) exv
     [(1%nat, WInt (-2), EXTEND); (0%nat, WPair 1 2, MIRROR); (1%nat, WInt 1, EXTEND)] = Ok w /\ shp (gdata w) = [5%nat; 6%nat].
Proof. exact (@trim_boundary_undoes_padding_ex_lem). Qed.

(** C11. For data that on every axis is periodic with offset in [0,1) or cell-centred between walls, trimming after any successful sequence of pads returns the original array itself. *)
Theorem trim_boundary_restores : forall b u h w,
  wf_garr u ->
  (forall a, (a < gndim (ggrid u))%nat -> (periodic_axis b a /\ (0 <= nth a (goff u) 0 < 1)%Q) \/
     (centred u a /\ exists t1 t2, nth_error (btypes b) a = Some (t1, t2) /\ t1 <> Periodic /\ t2 <> Periodic)) ->
  Forall (fun op => (fst (fst op) < gndim (ggrid u))%nat) h ->
  foldM (fun v op => bc_pad b v (snd (fst op)) (fst (fst op)) (snd op)) u h = Ok w ->
  exists t, trim_boundary b w = Ok t /\ same_field t u.
Proof. exact (@trim_boundary_restores_lem). Qed.
Print Assumptions trim_boundary_restores.

(** The hypotheses are met by a concrete case. *)
Example trim_boundary_restores_ex :
  exists w t, foldM (fun v op => bc_pad (exb Neumann Dirichlet) v (snd (fst op)) (fst (fst op)) (snd op)) exu
     [(1%nat, WInt (-2), MIRROR); (0%nat, WPair 1 2, MIRROR); (1%nat, WInt 1, EXTEND)] = Ok w /\ shp (gdata w) = [5%nat; 6%nat] /\
   trim_boundary (exb Neumann Dirichlet) w = Ok t /\ same_field t exu.
Proof. exact (@trim_boundary_restores_ex_lem). Qed.

(** C11. The range restriction on periodic offsets is needed: for periodic data at offset 1 padded by one cell below, trim_boundary removes the wrong cell, returning the data rolled by one at offset 0. *)
Theorem trim_boundary_periodic_edge_refuted :
  ~ (forall b u h w, wf_garr u -> perbc (ggrid u) b ->
  Forall (fun op => (fst (fst op) < gndim (ggrid u))%nat) h ->
  foldM (fun v op => bc_pad b v (snd (fst op)) (fst (fst op)) (snd op)) u h = Ok w ->
  exists t t', trim_boundary b w = Ok t /\ trim_boundary b u = Ok t' /\ same_field t t').
Proof. exact (@trim_boundary_periodic_edge_refuted_lem). Qed.
Print Assumptions trim_boundary_periodic_edge_refuted.
