(** Generated by tools/gen.py from BCNamesProps.v: property theorems only. *)
From Verif Require Import Prelude NdArr Grids_model Spec Boundaries_model BoundariesPeriodic WallBC PRep PeriodicBCProps WallBCProps SpecBC.
From Verif Require Import BCNamesProps.
Set Implicit Arguments.

(** C91. dirichlet_boundary_conditions and neumann_boundary_conditions: every side of every axis is a wall of that kind with the given value, zero when no values are given; periodic_boundary_conditions: every axis is periodic on both sides. *)
Theorem uniform_boundaries : forall d a vs, (a < d)%nat -> length vs = d ->
  walls (dirichlet_bc d (Some (given vs))) a Dirichlet (nth a vs (0, 0)%R) /\ walls (dirichlet_bc d None) a Dirichlet (0, 0)%R /\
  walls (neumann_bc d (Some (given vs))) a Neumann (nth a vs (0, 0)%R) /\ walls (neumann_bc d None) a Neumann (0, 0)%R /\
  periodic_axis (periodic_bc d) a.
Proof. exact (@uniform_boundaries_lem). Qed.
Print Assumptions uniform_boundaries.

(** C91. channel_flow_boundary_conditions in two or more dimensions: walls with the given values (zero by default) on axis 1, every other axis periodic; the two-dimensional mixed constructors: one periodic axis and walls with the given values on the other. *)
Theorem mixed_boundaries : forall d a vs v k, (2 <= d)%nat -> (a < d)%nat -> length vs = d ->
  (forall b, b = channel_flow_bc d None \/ b = channel_flow_bc d (Some (given vs)) -> length (btypes b) = d /\ (a <> 1%nat -> periodic_axis b a)) /\
  walls (channel_flow_bc d None) 1 Dirichlet (0, 0)%R /\ walls (channel_flow_bc d (Some (given vs))) 1 Dirichlet (nth 1 vs (0, 0)%R) /\
  periodic_axis (periodic_and_neumann_bc (Some v)) 0 /\ walls (periodic_and_neumann_bc (Some v)) 1 Neumann v /\
  periodic_axis (periodic_and_neumann_bc None) 0 /\ walls (periodic_and_neumann_bc None) 1 Neumann (0, 0)%R /\
  (let p := if (k =? 0)%nat then 0%nat else 1%nat in
   periodic_axis (periodic_and_dirichlet_bc (Some v) k) p /\ walls (periodic_and_dirichlet_bc (Some v) k) (1 - p) Dirichlet v /\
   periodic_axis (periodic_and_dirichlet_bc None k) p /\ walls (periodic_and_dirichlet_bc None k) (1 - p) Dirichlet (0, 0)%R).
Proof. exact (@mixed_boundaries_lem). Qed.
Print Assumptions mixed_boundaries.

(** C91. In one dimension channel_flow_boundary_conditions describes two axes and no variable accepts it. *)
Theorem channel_flow_one_dim : forall u vals, gndim (ggrid u) = 1%nat -> mk_gvar u (channel_flow_bc 1 vals) = Err EValue.
Proof. exact (@channel_flow_one_dim_lem). Qed.
Print Assumptions channel_flow_one_dim.

(** C91. What a channel flow does at its boundaries, in any dimension and with any padding mode: a cell-centred variable shifted by one cell towards a wall of axis 1 meets the wall value halfway between the last cell and the ghost cell, and shifting along any other axis is cyclic. *)
Theorem channel_flow_ghosts : forall u vs mode, let d := gndim (ggrid u) in let b := channel_flow_bc d (Some (given vs)) in let n := Z.of_nat (nth 1 (gshape (ggrid u)) 0%nat) in
  wf_garr u -> (2 <= d)%nat -> length vs = d -> centred u 1 ->
  (exists r, bc_shift b u 1 1 mode = Ok r /\ forall ix, inb (gshape (ggrid u)) ix -> (nth 1 ix 0 = n - 1)%Z -> ((get (gdata u) ix + get (gdata r) ix) / 2 = snd (nth 1 vs (0, 0)))%R) /\
  (exists r, bc_shift b u (-1) 1 mode = Ok r /\ forall ix, inb (gshape (ggrid u)) ix -> (nth 1 ix 0 = 0)%Z -> ((get (gdata r) ix + get (gdata u) ix) / 2 = fst (nth 1 vs (0, 0)))%R) /\
  (forall a k, (a < d)%nat -> a <> 1%nat -> exists r, bc_shift b u k a mode = Ok r /\ forall ix, inb (gshape (ggrid u)) ix ->
     get (gdata r) ix = get (gdata u) (upd a ((nth a ix 0 + k) mod Z.of_nat (nth a (gshape (ggrid u)) 0%nat))%Z ix)).
Proof. exact (@channel_flow_ghosts_lem). Qed.
Print Assumptions channel_flow_ghosts.

(** C91. values(axis, grid) of walls with values on both sides of an axis: one array per side over the remaining axes, filled with the lower and the upper value; (None, None) when either is missing. *)
Theorem boundary_values : forall b a g lo hi, nth_error (bvals b) a = Some (lo, hi) ->
  match lo, hi with
  | Some l, Some h => exists A B, bc_values b a g = Some (A, B) /\ shp A = firstn a (gshape g) ++ skipn (S a) (gshape g) /\ shp B = shp A /\ forall ix, get A ix = l /\ get B ix = h
  | _, _ => bc_values b a g = None end.
Proof. exact (@boundary_values_lem). Qed.
Print Assumptions boundary_values.

(** C91. Against its docstring ("In case of periodic boundaries, returns a tuple(None,None)"), values on a variable of periodic_boundary_conditions returns arrays of zeros. *)
Theorem periodic_values_none_refuted : ~ (forall b a g, periodic_axis b a -> bc_values b a g = None).
Proof. exact (@periodic_values_none_refuted_lem). Qed.
Print Assumptions periodic_values_none_refuted.

(** C91. stagger places component k on the faces normal to axis k, without touching its data; components beyond the number of axes are dropped. center places every array at the cell centre. *)
Theorem placed_arrays : forall g v, length (stagger g v) = Nat.min (length v) (gndim g) /\ length (center g v) = length v /\
  (forall k x, nth_error v k = Some x -> nth_error (center g v) k = Some (mkga x (repeat (1 # 2)%Q (gndim g)) g) /\
    ((k < gndim g)%nat -> exists o, nth_error (stagger g v) k = Some (mkga x o g) /\ off_eq o (offs k (1 # 2) (repeat (1 # 2)%Q (gndim g))))).
Proof. exact (@placed_arrays_lem). Qed.
Print Assumptions placed_arrays.

(** The hypotheses are met by a concrete case. *)
Example uniform_boundaries_ex : length [(1, 2); (3, 4)]%R = 2%nat /\ walls (dirichlet_bc 2 (Some (given [(1, 2); (3, 4)]%R))) 1 Dirichlet (3, 4)%R.
Proof. exact (@uniform_boundaries_ex_lem). Qed.

(** The hypotheses are met by a concrete case. *)
Example mixed_boundaries_ex : length [(0, 0); (3, 4); (0, 0)]%R = 3%nat /\ periodic_axis (channel_flow_bc 3 None) 2.
Proof. exact (@mixed_boundaries_ex_lem). Qed.

(** The hypotheses are met by a concrete case. *)
Example channel_flow_one_dim_ex : gndim (ggrid (mkga (afull [2%nat] 0%R) [(1 # 2)%Q] (mkgrid [2%nat] [1%R] [(0, 2)%R]))) = 1%nat.
Proof. exact (@channel_flow_one_dim_ex_lem). Qed.

(** The hypotheses are met by a concrete case. *)
Example channel_flow_ghosts_ex : wf_garr tube /\ (2 <= gndim (ggrid tube))%nat /\ centred tube 1 /\ inb (gshape (ggrid tube)) [0; 2]%Z.
Proof. exact (@channel_flow_ghosts_ex_lem). Qed.

(** The hypotheses are met by a concrete case. *)
Example boundary_values_ex : nth_error (bvals (dirichlet_bc 2 (Some (given [(1, 2); (3, 4)]%R)))) 1 = Some (Some 3, Some 4)%R /\ exists A B, bc_values (dirichlet_bc 2 (Some (given [(1, 2); (3, 4)]%R))) 1 (ggrid tube) = Some (A, B) /\ shp A = [2%nat].
Proof. exact (@boundary_values_ex_lem). Qed.

(** The hypotheses are met by a concrete case. *)
Example placed_arrays_ex : nth_error (stagger (ggrid tube) [gdata tube; gdata tube; gdata tube]) 1 = Some (mkga (gdata tube) [((0 + 1) / 2)%Q; ((1 + 1) / 2)%Q] (ggrid tube)) /\ length (stagger (ggrid tube) [gdata tube; gdata tube; gdata tube]) = 2%nat.
Proof. exact (@placed_arrays_ex_lem). Qed.
