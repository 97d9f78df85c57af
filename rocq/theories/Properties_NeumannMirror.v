(** Generated by tools/gen.py from NeumannMirrorProps.v: property theorems only. *)
From Verif Require Import Prelude NdArr Grids_model Spec Boundaries_model BoundariesPeriodic WallBC PRep PeriodicBCProps WallBCProps.
From Verif Require Import NeumannMirrorProps.
Local Open Scope Z_scope.
Set Implicit Arguments.

(** C10. Two-sided MIRROR padding of cell-centred data between Neumann walls with derivatives g1 and g2, by any widths: the original cells are kept, and every ghost cell is its mirror image across the wall (when that is a cell of the array) plus the derivative times one cell width (above), or minus it (below). So homogeneous walls are mirrored exactly; with a nonzero derivative only the ghost next to the wall has the right slope. *)
Theorem neumann_mirror_padding : forall b u lo hi ax g1 g2,
  wf_garr u -> (ax < gndim (ggrid u))%nat -> centred u ax ->
  lower_wall b ax Neumann g1 -> upper_wall b ax Neumann g2 -> (0 <= lo)%Z -> (0 <= hi)%Z ->
  let n := Z.of_nat (nth ax (gshape (ggrid u)) 0%nat) in let h := nth ax (gstep (ggrid u)) 0%R in
  exists r, bc_pad b u (WPair lo hi) ax MIRROR = Ok r /\ extends u r ax lo hi /\
    forall ix, inb (shp (gdata r)) ix ->
      (let m := (2 * lo - 1 - nth ax ix 0)%Z in
       (nth ax ix 0 < lo /\ m < lo + n)%Z -> get (gdata r) ix = (get (gdata r) (upd ax m ix) - h * g1)%R) /\
      (let m := (2 * (lo + n) - 1 - nth ax ix 0)%Z in
       (lo + n <= nth ax ix 0 /\ lo <= m)%Z -> get (gdata r) ix = (get (gdata r) (upd ax m ix) + h * g2)%R).
Proof. exact (@neumann_mirror_padding_lem). Qed.
Print Assumptions neumann_mirror_padding.

(** The hypotheses are met by a concrete case. *)
Example neumann_mirror_padding_ex :
  exists r, bc_pad (exb Neumann Neumann) exu (WPair 2 2) 1 MIRROR = Ok r /\
    get (gdata r) (ix2 1 0) = (get (gdata r) (ix2 1 3) - 1 / 2 * 5)%R /\
    get (gdata r) (ix2 1 6) = (get (gdata r) (ix2 1 3) + 1 / 2 * 7)%R.
Proof. exact (@neumann_mirror_padding_ex_lem). Qed.

(** C10. Refuted beyond the first ghost cell: with MIRROR padding by two cells, the difference between the second ghost and its mirror image, divided by their distance of three cell widths, is not the derivative prescribed at the wall. *)
Theorem neumann_mirror_slope_refuted : ~ forall b u hi ax g r ix,
  wf_garr u -> (ax < gndim (ggrid u))%nat -> centred u ax -> lower_wall b ax Neumann g -> upper_wall b ax Neumann g ->
  let n := Z.of_nat (nth ax (gshape (ggrid u)) 0%nat) in let h := nth ax (gstep (ggrid u)) 0%R in
  bc_pad b u (WPair 0 hi) ax MIRROR = Ok r -> inb (shp (gdata r)) ix -> n <= nth ax ix 0 ->
  let m := 2 * n - 1 - nth ax ix 0 in 0 <= m ->
  ((get (gdata r) ix - get (gdata r) (upd ax m ix)) / (IZR (nth ax ix 0%Z - m)%Z * h) = g)%R.
Proof. exact (@neumann_mirror_slope_refuted_lem). Qed.
Print Assumptions neumann_mirror_slope_refuted.
