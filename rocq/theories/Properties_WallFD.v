(** Generated by tools/gen.py from WallFDProps.v: property theorems only. *)
From Verif Require Import Prelude NdArr Grids_model Spec Boundaries_model BoundariesPeriodic WallBC PRep FD_model FDProofs PeriodicBCProps WallBCProps ImposeProps FDProps WallFD Pressure_model PressureProps.
From Verif Require Import WallFDProps.
Local Open Scope Z_scope.
Set Implicit Arguments.

(** C51. The neighbour values used at walls satisfy the wall conditions: past the wall of a cell-centred axis the ghost value and the cell next to the wall meet the Dirichlet (mean) or Neumann (difference quotient) condition. *)
Theorem neighbours_satisfy_walls : forall b u a t1 v1 t2 v2 ix,
  wf_garr u -> (a < gndim (ggrid u))%nat -> centred u a ->
  lower_wall b a t1 v1 -> upper_wall b a t2 v2 -> (t1 = Dirichlet \/ t1 = Neumann) -> (t2 = Dirichlet \/ t2 = Neumann) ->
  inb (gshape (ggrid u)) ix ->
  (nth a ix 0 = 0 -> wall_holds t1 v1 (hstep (ggrid u) a) (nbr b u a (-1) ix) (get (gdata u) ix)) /\
  (nth a ix 0 = Z.of_nat (nth a (gshape (ggrid u)) 0%nat) - 1 -> wall_holds t2 v2 (hstep (ggrid u) a) (get (gdata u) ix) (nbr b u a 1 ix)).
Proof. exact (@neighbours_satisfy_walls_lem). Qed.
Print Assumptions neighbours_satisfy_walls.

(** The hypotheses are met by a concrete case. *)
Example neighbours_satisfy_walls_ex :
  wf_garr exu /\ centred exu 1 /\ lower_wall (exb Dirichlet Neumann) 1 Dirichlet 5 /\ upper_wall (exb Dirichlet Neumann) 1 Neumann 7 /\
  inb (gshape (ggrid exu)) [1; 0].
Proof. exact (@neighbours_satisfy_walls_ex_lem). Qed.

(** C51. On every grid and for every mix of periodic, cell-centred walled (Dirichlet/Neumann) and edge-aligned Dirichlet axes, forward, backward and central differences along an axis return the difference quotients of neighbour values, at offsets +1/2, -1/2 and 0. *)
Theorem differences_with_walls : forall u ax,
  wf_garr (garray u) -> (ax < gndim (ggrid (garray u)))%nat -> walled_axis (gbc u) (garray u) ax ->
  let g := ggrid (garray u) in let o := goff (garray u) in
  (exists w, forward_difference u ax = Ok w /\ is_field w g (offs ax (1 # 2) o)
     (fun ix => (nbr (gbc u) (garray u) ax 1 ix - get (gdata (garray u)) ix) / hstep g ax)%R) /\
  (exists w, backward_difference u ax = Ok w /\ is_field w g (offs ax (- 1 # 2) o)
     (fun ix => (get (gdata (garray u)) ix - nbr (gbc u) (garray u) ax (-1) ix) / hstep g ax)%R) /\
  (exists w, central_difference u ax = Ok w /\ is_field w g o
     (fun ix => (nbr (gbc u) (garray u) ax 1 ix - nbr (gbc u) (garray u) ax (-1) ix) / (2 * hstep g ax))%R).
Proof. exact (@differences_with_walls_lem). Qed.
Print Assumptions differences_with_walls.

(** The hypotheses are met by a concrete case. *)
Example differences_with_walls_ex :
  wf_garr exu /\ (1 < gndim (ggrid exu))%nat /\ walled_axis (exb Dirichlet Neumann) exu 1 /\ walled_axis (exb Dirichlet Dirichlet) exv 1.
Proof. exact (@differences_with_walls_ex_lem). Qed.

(** C51. laplacian returns, at the variable's own offset, the sum over axes of (upper neighbour - 2 u + lower neighbour) / h^2 for every mix of such axes. *)
Theorem laplacian_with_walls : forall u,
  wf_garr (garray u) -> (forall a, (a < gndim (ggrid (garray u)))%nat -> walled_axis (gbc u) (garray u) a) ->
  exists w, laplacian u = Ok w /\
    is_field w (ggrid (garray u)) (goff (garray u))
      (fun ix => nsum (gndim (ggrid (garray u))) (fun a =>
         (nbr (gbc u) (garray u) a 1 ix - 2 * get (gdata (garray u)) ix + nbr (gbc u) (garray u) a (-1) ix)
           / hstep (ggrid (garray u)) a ^ 2)%R).
Proof. exact (@laplacian_with_walls_lem). Qed.
Print Assumptions laplacian_with_walls.

(** The hypotheses are met by a concrete case. *)
Example laplacian_with_walls_ex :
  wf_garr (garray (mkgv exu (exb Dirichlet Neumann))) /\
  (forall a, (a < gndim (ggrid exu))%nat -> walled_axis (exb Dirichlet Neumann) exu a).
Proof. exact (@laplacian_with_walls_ex_lem). Qed.

(** C53. In a box whose axes are periodic or bounded by walls (component normal to a wall edge-aligned, Dirichlet, same value on both walls, e.g. no penetration), the sum over all cells of the divergence of a staggered velocity is zero on every grid. *)
Theorem box_divergence_total : forall g per v, (0 < gndim g)%nat -> wfg g -> box_velocity g per v ->
  (forall i u lo hi, per i = false -> nth_error v i = Some u -> nth_error (bvals (gbc u)) i = Some (Some lo, Some hi) -> lo = hi) ->
  exists w, divergence v = Ok w /\ is_field w g (repeat (1 # 2)%Q (gndim g)) (get (gdata w)) /\ total (gdata w) = 0%R.
Proof. exact (@box_divergence_total_lem). Qed.
Print Assumptions box_divergence_total.

(** The hypotheses are met by a concrete case. *)
Example box_divergence_total_ex :
  (0 < gndim prg)%nat /\ wfg prg /\ box_velocity prg chper chv /\
  (forall i u lo hi, chper i = false -> nth_error chv i = Some u -> nth_error (bvals (gbc u)) i = Some (Some lo, Some hi) -> lo = hi).
Proof. exact (@box_divergence_total_ex_lem). Qed.

(** C52. In a box whose axes are periodic or bounded by walls (normal component Dirichlet, edge-aligned; tangential components with any conditions), if the solver returns a cell-centred q whose laplacian under the pressure boundary conditions inferred from the velocity is the divergence of v, then projection returns a velocity with the same grid, offsets and boundary conditions, still holding the wall values, whose divergence is zero in every cell. *)
Theorem projection_in_box : forall g per v solve q pb dv lq,
  (0 < gndim g)%nat -> wfg g -> box_velocity g per v ->
  pressure_bc_from_velocity v = Ok pb -> (forall q0, solve v q0 pb = Ok q) ->
  wf_garr q -> ggrid q = g -> off_eq (goff q) (repeat (1 # 2)%Q (gndim g)) ->
  divergence v = Ok dv -> laplacian (mkgv q pb) = Ok lq ->
  (forall ix, inb (gshape g) ix -> get (gdata lq) ix = get (gdata dv) ix) ->
  exists v', projection solve v = Ok v' /\ box_velocity g per v' /\ map gbc v' = map gbc v /\
    exists w, divergence v' = Ok w /\ forall ix, inb (gshape g) ix -> get (gdata w) ix = 0%R.
Proof. exact (@projection_in_box_lem). Qed.
Print Assumptions projection_in_box.

(** The hypotheses are met by a concrete case. *)
Example projection_in_box_ex :
  (0 < gndim prg)%nat /\ wfg prg /\ box_velocity prg chper chv /\
  pressure_bc_from_velocity chv = Ok chpb /\ wf_garr chq /\ off_eq (goff chq) (repeat (1 # 2)%Q (gndim prg)) /\
  exists dv lq, divergence chv = Ok dv /\ laplacian (mkgv chq chpb) = Ok lq /\ get (gdata dv) [0; 0] = 1%R /\
    forall ix, inb (gshape prg) ix -> get (gdata lq) ix = get (gdata dv) ix.
Proof. exact (@projection_in_box_ex_lem). Qed.
