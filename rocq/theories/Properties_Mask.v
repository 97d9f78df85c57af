(** Generated by tools/gen.py from MaskProps.v: property theorems only. *)
From Coq Require Import Qreals.
From Verif Require Import Prelude NdArr Grids_model Spec PRep FDProofs GridProps NetworksProps SpecMask.
From Verif Require Import MaskProps.
Local Open Scope R_scope.
Set Implicit Arguments.

(** C90. domain_interior_masks returns one array of zeros and ones per axis; on a grid whose half cells are wider than the tolerance of isclose the one of axis f is one exactly at the faces normal to f strictly inside the domain, that is, everywhere but on the last layer of cells. *)
Theorem interior_masks : forall g, box g -> resolved g ->
  exists m, domain_interior_masks g = Ok m /\ length m = gndim g /\
    forall f, (f < gndim g)%nat -> shp (nth f m (afull [] 0)) = gshape g /\
      forall ix, inb (gshape g) ix ->
        get (nth f m (afull [] 0)) ix = (if (nth f ix 0 =? Z.of_nat (nth f (gshape g) 0%nat) - 1)%Z then 0 else 1) /\
        (get (nth f m (afull [] 0)) ix = 1 <-> inside g (nth f (cell_faces g) []) ix).
Proof. exact (@interior_masks_lem). Qed.
Print Assumptions interior_masks.

(** C90. On every grid the faces that a mask keeps lie strictly inside the domain. *)
Theorem interior_masks_sound : forall g m f ix, box g -> domain_interior_masks g = Ok m -> (f < gndim g)%nat -> inb (gshape g) ix -> get (nth f m (afull [] 0)) ix <> 0 -> inside g (nth f (cell_faces g) []) ix.
Proof. exact (@interior_masks_sound_lem). Qed.
Print Assumptions interior_masks_sound.

(** C90. Without that condition a face inside the domain can be masked: far from the origin the relative tolerance exceeds the width of the cells. *)
Theorem interior_masks_complete_refuted : ~ (forall g m f ix, box g -> domain_interior_masks g = Ok m -> (f < gndim g)%nat -> inb (gshape g) ix -> inside g (nth f (cell_faces g) []) ix -> get (nth f m (afull [] 0)) ix <> 0).
Proof. exact (@interior_masks_complete_refuted_lem). Qed.
Print Assumptions interior_masks_complete_refuted.

(** C90. The interior grid of a variable at nodes, centres or faces has the same cells as its grid, and along each axis that is not periodic its points at the offset of the variable are exactly those of the variable strictly inside the domain; periodic axes are unchanged. *)
Theorem interior_grid_points : forall u, aligned u ->
  (forall a, (a < gndim (ggrid (garray u)))%nat -> walled u a -> (nth a (goff (garray u)) 0 == 0 \/ nth a (goff (garray u)) 0 == 1)%Q -> (2 <= nth a (gshape (ggrid (garray u))) 0)%nat) ->
  exists g', interior_grid u = Ok g' /\ box g' /\ gndim g' = gndim (ggrid (garray u)) /\
    forall a, (a < gndim g')%nat -> hstep g' a = hstep (ggrid (garray u)) a /\
      (walled u a -> forall x, axis_point g' (goff (garray u)) a x <-> axis_point (ggrid (garray u)) (goff (garray u)) a x /\ lower (ggrid (garray u)) a < x < upper (ggrid (garray u)) a) /\
      (~ walled u a -> nth a (gshape g') 0%nat = nth a (gshape (ggrid (garray u))) 0%nat /\ nth a (gdomain g') (0, 0) = nth a (gdomain (ggrid (garray u))) (0, 0)).
Proof. exact (@interior_grid_points_lem). Qed.
Print Assumptions interior_grid_points.

(** C90. A variable on nodes or faces normal to an axis with a single cell that is not periodic has no interior grid: the constructor divides by zero. *)
Theorem interior_grid_empty : forall u a, aligned u -> (a < gndim (ggrid (garray u)))%nat -> walled u a -> (nth a (goff (garray u)) 0 == 0 \/ nth a (goff (garray u)) 0 == 1)%Q -> nth a (gshape (ggrid (garray u))) 0%nat = 1%nat -> interior_grid u = Err EZeroDiv.
Proof. exact (@interior_grid_empty_lem). Qed.
Print Assumptions interior_grid_empty.

(** The hypotheses are met by a concrete case. *)
Example interior_masks_ex : let g := mkgrid [3%nat] [1] [(0, 3)] in box g /\ resolved g.
Proof. exact (@interior_masks_ex_lem). Qed.

(** The hypotheses are met by a concrete case. *)
Example interior_masks_sound_ex : let g := mkgrid [3%nat] [1] [(0, 3)] in exists m, domain_interior_masks g = Ok m /\ get (nth 0 m (afull [] 0)) [0%Z] <> 0 /\ inb (gshape g) [0%Z].
Proof. exact (@interior_masks_sound_ex_lem). Qed.

(** The hypotheses are met by a concrete case. *)
Example interior_grid_points_ex : aligned (strip Dirichlet 3) /\ walled (strip Dirichlet 3) 0 /\ exists g', interior_grid (strip Dirichlet 3) = Ok g' /\ gshape g' = [2%nat].
Proof. exact (@interior_grid_points_ex_lem). Qed.

(** The hypotheses are met by a concrete case. *)
Example interior_grid_empty_ex : aligned (strip Dirichlet 1) /\ walled (strip Dirichlet 1) 0.
Proof. exact (@interior_grid_empty_ex_lem). Qed.
