(** Generated by tools/gen.py from NeighborProps.v: property theorems only. *)
From Verif Require Import Prelude NdArr Grids_model Spec SpecNS Boundaries_model BoundariesPeriodic FD_model Interp_model Advection_model ArrayUtils_model Equations_model PRep FDProofs FDProps InterpProps ArrayUtilsProps PressureProps PressureSolveProps EquationsProps Networks_model NetworksProps TilingProofs.
From Verif Require Import NeighborProps.
Local Open Scope Z_scope.
Set Implicit Arguments.

(** C62. Channel layout of stack_aligned_field_with_neighbors, in any dimension d, for any number m of neighbours and any n >= 1 fields filling the grid: the result has n (2 m d + 1) channels on the grid's shape; the last n channels are the fields themselves, and for every shift r between -m and m except 0 (numbered in increasing order, 0 left out), every axis a and every field k, channel ((number of r) d + a) n + k holds in every cell the (periodic) value of field k at distance -r along a: jnp.roll by r. So every neighbour on both sides along every axis occurs. *)
Theorem neighbor_channels : forall g m v, wfg g -> v <> [] -> (forall u, In u v -> ggrid (garray u) = g /\ shp (gdata (garray u)) = gshape g) -> let d := gndim g in let n := length v in (0 < d)%nat ->
  exists y, stack_aligned_field_with_neighbors g m v = Ok y /\ shp y = gshape g ++ [((2 * m * d + 1) * n)%nat] /\
    (forall k ix, (k < n)%nat -> inb (gshape g) ix -> get y (ix ++ [Z.of_nat (2 * m * d * n + k)]) = get (gdata (garray (nth k v dgv))) ix) /\
    (forall r a k ix, r <> 0 -> Z.abs r <= Z.of_nat m -> (a < d)%nat -> (k < n)%nat -> inb (gshape g) ix ->
       get y (ix ++ [Z.of_nat ((Z.to_nat (if r <? 0 then r + Z.of_nat m else r + Z.of_nat m - 1) * d + a) * n + k)]) = pval (garray (nth k v dgv)) (shiftix a (- r) ix)).
Proof. exact (@neighbor_channels_lem). Qed.
Print Assumptions neighbor_channels.

(** The hypotheses are met by a concrete case. *)
Example neighbor_channels_ex : wfg p34g /\ p34v <> [] /\ (forall u, In u p34v -> ggrid (garray u) = p34g /\ shp (gdata (garray u)) = gshape p34g) /\ (0 < gndim p34g)%nat.
Proof. exact (@neighbor_channels_ex_lem). Qed.
