(** * Specification vocabulary for diffusion (used in theorem statements only) *)
From Verif Require Import Prelude NdArr Grids_model Spec SpecLin.
Set Implicit Arguments.
Local Open Scope Z_scope.

(** Nothing flows through the ends of the axis: periodic, or cell-centred with zero gradient on both sides. *)
Definition insulated_axis (b : bcs) (u : garr) (a : nat) : Prop :=
  periodic_axis b a \/ (centred u a /\ lower_wall b a Neumann 0 /\ upper_wall b a Neumann 0).
(** Edge-aligned between Dirichlet walls whose values lie in [m, M]. *)
Definition walls_between (b : bcs) (u : garr) (a : nat) (m M : R) : Prop :=
  edge_side b (goff u) a <> None /\ exists lo hi, nth_error (bvals b) a = Some (Some lo, Some hi) /\ (m <= lo <= M)%R /\ (m <= hi <= M)%R.

(** [u'] is the result of one implicit diffusion step from [u] with [c] = nu * dt: same grid, offset, shape and
    boundary conditions; (1 - c * Laplacian) u' = u in every cell that is not on a wall, where the Laplacian is
    the sum of the second difference quotients with these boundary conditions; and the entries on a wall
    hold its value (where walls of several axes meet, that of the last axis). *)
Definition implicitly_diffused (c : R) (u u' : gvar) : Prop :=
  let g := ggrid (garray u) in
  gbc u' = gbc u /\ ggrid (garray u') = g /\ off_eq (goff (garray u')) (goff (garray u)) /\
  shp (gdata (garray u')) = gshape g /\
  (forall ix, inb (gshape g) ix -> (forall a, (a < gndim g)%nat -> wall_value (gbc u) (garray u) a ix = None) ->
     (get (gdata (garray u')) ix - c * nsum (gndim g) (fun a => second_difference (gbc u) (garray u') a ix)
      = get (gdata (garray u)) ix)%R) /\
  (forall ix a x, inb (gshape g) ix -> (a < gndim g)%nat -> wall_value (gbc u) (garray u) a ix = Some x ->
     (forall a', (a < a' < gndim g)%nat -> wall_value (gbc u) (garray u) a' ix = None) ->
     get (gdata (garray u')) ix = x).

(** Dirichlet walls with values [lo] and [hi] at both ends of the axis; data centred or on the edges. *)
Definition dirichlet_axis (b : bcs) (u : garr) (a : nat) (lo hi : R) : Prop :=
  nth_error (btypes b) a = Some (Dirichlet, Dirichlet) /\ nth_error (bvals b) a = Some (Some lo, Some hi) /\
  (centred u a \/ edge_side b (goff u) a <> None).
(** One of the two ends of the axis is a Dirichlet wall. *)
Definition dirichlet_side (b : bcs) (a : nat) : Prop :=
  exists t, nth_error (btypes b) a = Some (Dirichlet, t) \/ nth_error (btypes b) a = Some (t, Dirichlet).
(** The components the implicit solve handles on a 2-d grid: either no flow through the ends of axis 0 and
    Dirichlet walls with any values along axis 1; or periodic axes and walls of zero value or gradient in any
    combination, the grid being square if axis 0 has a Dirichlet wall. *)
Definition diffusable_2d (u : gvar) : Prop :=
  let g := ggrid (garray u) in
  gndim g = 2%nat /\
  ((insulated_axis (gbc u) (garray u) 0 /\ exists lo hi, dirichlet_axis (gbc u) (garray u) 1 lo hi) \/
   (homogeneous_axis (gbc u) (garray u) 0 /\ homogeneous_axis (gbc u) (garray u) 1 /\
    (dirichlet_side (gbc u) 0 -> nth 0 (gshape g) 0%nat = nth 1 (gshape g) 0%nat))).
(** The cells fill the domain, as on every grid the constructor returns. *)
Definition cells_fill_domain (g : grid) : Prop := forall a, (a < gndim g)%nat ->
  (snd (nth a (gdomain g) (0%R, 0%R)) - fst (nth a (gdomain g) (0%R, 0%R)) = INR (nth a (gshape g) 0%nat) * hstep g a)%R.
