(** * Vocabulary of the property statements (nothing here mentions how the code works). *)
From Verif Require Import Prelude NdArr Grids_model.
Set Implicit Arguments.

(** A grid whose fields have one entry per axis, at least one cell per axis and no zero step. *)
Definition wfg (g : grid) : Prop :=
  length (gstep g) = gndim g /\ length (gdomain g) = gndim g /\ allpos (gshape g) /\
  Forall (fun h => h <> 0%R) (gstep g).

(** Value of an array at an arbitrary integer index, wrapped around every axis. *)
Definition pval (u : garr) (ix : list Z) : R := get (gdata u) (wrap (shp (gdata u)) ix).

(** Every axis is periodic on both sides. *)
Definition perbc (g : grid) (b : bcs) : Prop := btypes b = repeat (Periodic, Periodic) (gndim g).

(** offset [o] moved by [q] along [ax] *)
Definition offs (ax : nat) (q : Q) (o : list Q) : list Q := upd ax (nth ax o 0 + q)%Q o.

(** Array data that fills the cells of its grid (any offset). *)
Definition wf_garr (u : garr) : Prop :=
  wfg (ggrid u) /\ shp (gdata u) = gshape (ggrid u) /\ length (goff u) = gndim (ggrid u).

(** A variable with periodic boundary conditions on every axis. *)
Definition periodic_field (u : gvar) : Prop :=
  wf_garr (garray u) /\ perbc (ggrid (garray u)) (gbc u).

(** Width of a cell on axis [i]; neighbours of an index along an axis. *)
Definition hstep (g : grid) (i : nat) : R := nth i (gstep g) 0%R.
Definition next (ax : nat) (ix : list Z) : list Z := shiftix ax 1 ix.
Definition prev (ax : nat) (ix : list Z) : list Z := shiftix ax (-1) ix.

(** Sum over axes 0 .. d-1. *)
Definition lsum (l : list R) : R := fold_right Rplus 0%R l.
Definition nsum (d : nat) (f : nat -> R) : R := lsum (map f (seq 0 d)).

(** Coordinate on axis [a] of the point with index [ix] of an array at offset [o]. *)
Definition coord (g : grid) (o : list Q) (a : nat) (ix : list Z) : R :=
  (fst (nth a (gdomain g) (0, 0)) + (IZR (nth a ix 0%Z) + Q2R (nth a o 0%Q)) * hstep g a)%R.

(** "[w] is an array on the same grid cells as [u], at offset [o], whose entries are [f]". *)
Definition is_field (w : garr) (g : grid) (o : list Q) (f : list Z -> R) : Prop :=
  ggrid w = g /\ off_eq (goff w) o /\ shp (gdata w) = gshape g /\
  forall ix, inb (gshape g) ix -> get (gdata w) ix = f ix.


(** Axis [ax] is periodic on both sides (other axes may be anything). *)
Definition periodic_axis (b : bcs) (ax : nat) : Prop := nth_error (btypes b) ax = Some (Periodic, Periodic).

(** Same grid, same offset, same data. *)
Definition same_field (u w : garr) : Prop :=
  ggrid u = ggrid w /\ off_eq (goff u) (goff w) /\ aeq (gdata u) (gdata w).

(** Index minus an origin [L a] on every axis [a]. *)
Definition subix (L : nat -> Z) (ix : list Z) : list Z :=
  map (fun a => (nth a ix 0 - L a)%Z) (seq 0 (length ix)).

(** A vector of periodic variables on grid [g], one per axis. *)
Definition periodic_vec (g : grid) (v : list gvar) : Prop :=
  length v = gndim g /\ Forall (fun u => periodic_field u /\ ggrid (garray u) = g) v.

(** Component [i] sits half a cell above the common point [o] along axis [i] (staggered, "MAC"). *)
Definition face_aligned (o : list Q) (v : list gvar) : Prop :=
  forall i u, nth_error v i = Some u -> off_eq (goff (garray u)) (offs i (1 # 2) o).

(** Value of component [i] at an arbitrary (wrapped) index. *)
Definition vval (v : list gvar) (i : nat) (ix : list Z) : R :=
  match nth_error v i with Some u => pval (garray u) ix | None => 0%R end.

(** [s = al * u + be * w] as fields. *)
Definition lincomb (al be : R) (u w s : gvar) : Prop :=
  ggrid (garray u) = ggrid (garray s) /\ ggrid (garray w) = ggrid (garray s) /\
  forall ix, inb (gshape (ggrid (garray s))) ix ->
    get (gdata (garray s)) ix = (al * get (gdata (garray u)) ix + be * get (gdata (garray w)) ix)%R.

(** ** Walls.  The lower (upper) side of axis [ax] carries condition [t] with value [v]. *)
Definition lower_wall (b : bcs) (ax : nat) (t : bctype) (v : R) : Prop :=
  exists t' v', nth_error (btypes b) ax = Some (t, t') /\ nth_error (bvals b) ax = Some (Some v, v').
Definition upper_wall (b : bcs) (ax : nat) (t : bctype) (v : R) : Prop :=
  exists t' v', nth_error (btypes b) ax = Some (t', t) /\ nth_error (bvals b) ax = Some (v', Some v).

(** Data located in the middle of the cells along [ax]. *)
Definition centred (u : garr) (ax : nat) : Prop := (nth ax (goff u) 0 == 1 # 2)%Q.

(** The wall condition between two cells on either side of a wall, [x] on the side of smaller
    coordinates and [y] on the side of larger ones: the interpolant is [v] (Dirichlet) or the
    difference quotient is [v] (Neumann). *)
Definition wall_holds (t : bctype) (v h x y : R) : Prop :=
  match t with
  | Dirichlet => ((x + y) / 2 = v)%R
  | Neumann => ((y - x) / h = v)%R
  | _ => False
  end.

(** "[r] extends [u] by [lo] cells below and [hi] above along [ax]": same grid, offset lowered by
    [lo], length increased, and the cells of [u] in the middle. *)
Definition extends (u r : garr) (ax : nat) (lo hi : Z) : Prop :=
  let n := nth ax (gshape (ggrid u)) 0%nat in
  ggrid r = ggrid u /\ off_eq (goff r) (offs ax (- inject_Z lo) (goff u)) /\
  shp (gdata r) = upd ax (Z.to_nat (lo + Z.of_nat n + hi)) (gshape (ggrid u)) /\
  forall ix, inb (shp (gdata r)) ix -> (lo <= nth ax ix 0 < lo + Z.of_nat n)%Z ->
    get (gdata r) ix = get (gdata u) (upd ax (nth ax ix 0 - lo)%Z ix).

(** Which entry along axis [a] lies on a wall, and the value prescribed there: for data aligned with
    the cell edges between two Dirichlet walls, the last entry (offset 1) or the first one (offset 0). *)
Definition edge_side (b : bcs) (o : list Q) (a : nat) : option (bool * R) :=
  match nth_error (btypes b) a, nth_error (bvals b) a with
  | Some (Dirichlet, Dirichlet), Some (Some lo, Some hi) =>
      if Qeq_bool (nth a o 0%Q) 1 then Some (true, hi)
      else if Qeq_bool (nth a o 0%Q) 0 then Some (false, lo) else None
  | _, _ => None
  end.
(** The value prescribed at index [ix] by the walls of axis [a], if any. *)
Definition wall_value (b : bcs) (u : garr) (a : nat) (ix : list Z) : option R :=
  match edge_side b (goff u) a with
  | Some (true, hi) =>
      if (nth a ix 0 =? Z.of_nat (nth a (gshape (ggrid u)) 0%nat) - 1)%Z then Some hi else None
  | Some (false, lo) => if (nth a ix 0 =? 0)%Z then Some lo else None
  | None => None
  end.
(** Periodic (any offset), cell-centred (any condition), or edge-aligned between Dirichlet walls. *)
Definition regular_axis (b : bcs) (u : garr) (a : nat) : Prop :=
  periodic_axis b a \/ centred u a \/ edge_side b (goff u) a <> None.

(** Axes whose padding can be recognised: periodic with offset in [0, 1), cell-centred between two
    non-periodic sides, or edge-aligned between Dirichlet walls. *)
Definition trimmable_axis (b : bcs) (u : garr) (a : nat) : Prop :=
  (periodic_axis b a /\ (0 <= nth a (goff u) 0 < 1)%Q) \/
  (centred u a /\ exists t1 t2, nth_error (btypes b) a = Some (t1, t2) /\ t1 <> Periodic /\ t2 <> Periodic) \/
  edge_side b (goff u) a <> None.

(** ** Inferred boundary conditions. *)
(** Side [i] (false: lower, true: upper) of axis [a]: condition and value. *)
Definition side_type (b : bcs) (a : nat) (i : bool) : option bctype :=
  option_map (fun p : bctype * bctype => if i then snd p else fst p) (nth_error (btypes b) a).
Definition side_value (b : bcs) (a : nat) (i : bool) : option (option R) :=
  option_map (fun p : option R * option R => if i then snd p else fst p) (nth_error (bvals b) a).
(** "periodic along axis a" as the library decides it: the lower side is periodic. *)
Definition lower_periodic (b : bcs) (a : nat) : Prop := side_type b a false = Some Periodic.

(** The condition a flux has at one side of the axis it flows along, when that is known without
    knowing the fields: no flow through a wall with zero normal velocity; zero gradient when both
    velocity and scalar have zero gradient (to the tolerance 1e-8 of np.isclose for the scalar). *)
Definition flux_condition (bu bc : bcs) (a : nat) (i : bool) (t : bctype) : Prop :=
  (side_type bu a i = Some Dirichlet /\ side_value bu a i = Some (Some 0%R) /\ t = Dirichlet) \/
  (side_type bu a i = Some Neumann /\ side_type bc a i = Some Neumann /\ t = Neumann /\
   exists x, side_value bc a i = Some (Some x) /\ (Rabs x <= 1 / 100000000)%R).

(** ** Neighbour values at boundaries. *)
(** An axis on which a variable's neighbours are defined everywhere: periodic; cell-centred with a
    Dirichlet or Neumann condition (with a value) on each side; edge-aligned between Dirichlet walls. *)
Definition walled_axis (b : bcs) (u : garr) (a : nat) : Prop :=
  periodic_axis b a \/
  (centred u a /\ exists t1 v1 t2 v2, lower_wall b a t1 v1 /\ upper_wall b a t2 v2 /\
     (t1 = Dirichlet \/ t1 = Neumann) /\ (t2 = Dirichlet \/ t2 = Neumann)) \/
  edge_side b (goff u) a <> None.

(** The value beyond a wall, [x] being the value of the cell next to it ([s] is 1 above, -1 below):
    the one that makes [wall_holds] true. *)
Definition beyond (t : bctype) (v h s x : R) : R :=
  match t with Dirichlet => (2 * v - x)%R | _ => (x + s * h * v)%R end.

(** Value of the neighbour of cell [ix] at distance [k] (1 or -1) along axis [a]: the stored value of
    that cell, the cell at the other end of a periodic axis, the value beyond the wall of a
    cell-centred axis, and the prescribed value on (or past) the wall of an edge-aligned axis. *)
Definition nbr (b : bcs) (u : garr) (a : nat) (k : Z) (ix : list Z) : R :=
  let n := Z.of_nat (nth a (gshape (ggrid u)) 0%nat) in
  let i := (nth a ix 0 + k)%Z in
  let at_ j := get (gdata u) (upd a j ix) in
  let val (o : option R) := match o with Some x => x | None => 0%R end in
  let '(t1, t2) := nth a (btypes b) (BCOther, BCOther) in
  let '(v1, v2) := nth a (bvals b) (None, None) in
  match t1, t2, edge_side b (goff u) a with
  | Periodic, Periodic, _ => at_ (i mod n)%Z
  | _, _, Some (top, _) =>
      if (i <? (if top then 0 else 1))%Z then val v1
      else if ((if top then n - 1 else n) <=? i)%Z then val v2 else at_ i
  | _, _, None =>
      if (i <? 0)%Z then beyond t1 (val v1) (hstep (ggrid u) a) (-1) (at_ 0%Z)
      else if (n <=? i)%Z then beyond t2 (val v2) (hstep (ggrid u) a) 1 (at_ (n - 1)%Z)
      else at_ i
  end.

(** A staggered velocity in a box: component [i] on the cell faces normal to axis [i]; every axis is
    either periodic for all components ([per a = true]) or bounded for all components; the walls
    normal to component [i] are Dirichlet and its entries on the upper wall hold the wall value. *)
Definition box_velocity (g : grid) (per : nat -> bool) (v : list gvar) : Prop :=
  length v = gndim g /\
  forall i u, nth_error v i = Some u ->
    wf_garr (garray u) /\ ggrid (garray u) = g /\
    off_eq (goff (garray u)) (offs i (1 # 2) (repeat (1 # 2)%Q (gndim g))) /\
    length (btypes (gbc u)) = gndim g /\
    (forall a, (a < gndim g)%nat ->
       if per a then periodic_axis (gbc u) a
       else exists t1 t2, nth_error (btypes (gbc u)) a = Some (t1, t2) /\ t1 <> Periodic) /\
    (per i = false -> exists hi, edge_side (gbc u) (goff (garray u)) i = Some (true, hi) /\
       forall ix, inb (gshape g) ix -> nth i ix 0%Z = (Z.of_nat (nth i (gshape g) 0%nat) - 1)%Z ->
         get (gdata (garray u)) ix = hi).

(** Stored value of component [i], and the sum of the squares of all stored values. *)
Definition velocity_at (v : list gvar) (i : nat) (ix : list Z) : R :=
  match nth_error v i with Some u => get (gdata (garray u)) ix | None => 0%R end.
Definition kinetic (g : grid) (f : nat -> list Z -> R) : R :=
  nsum (gndim g) (fun i => asum (gshape g) (fun ix => f i ix ^ 2))%R.
(** Every wall value of the normal components is zero: nothing flows through the walls. *)
Definition impermeable (per : nat -> bool) (v : list gvar) : Prop :=
  forall i u, nth_error v i = Some u -> per i = false -> nth_error (bvals (gbc u)) i = Some (Some 0%R, Some 0%R).

(** ** Interpolation. *)
(** Linear interpolation of [F] along axis [ax] at distance [d] (in cells): with [k = floor d] and
    [f = d - k], weight [1 - f] on the neighbour at distance [k] and [f] on the one at [k + 1]. *)
Definition lerp_axis (ax : nat) (d : Q) (F : list Z -> R) (ix : list Z) : R :=
  let f := Q2R (d - inject_Z (Qfloor d)) in
  ((1 - f) * F (shiftix ax (Qfloor d) ix) + f * F (shiftix ax (Qfloor d + 1) ix))%R.
(** The same along axes 0, 1, ..., n-1 in turn, from offset [o] to offset [o']. *)
Fixpoint lerp (n : nat) (o o' : list Q) (F : list Z -> R) : list Z -> R :=
  match n with
  | O => F
  | S m => lerp_axis m (nth m o' 0 - nth m o 0)%Q (lerp m o o' F)
  end.

(** ** Advection. *)
(** Velocity through the faces normal to axis [a] of the control volumes around the points of [c]:
    component [a] of [v] linearly interpolated to the point half a cell above along [a]. *)
Definition face_velocity (c : gvar) (v : list gvar) (a : nat) : list Z -> R :=
  let g := ggrid (garray c) in
  match nth_error v a with
  | Some u => lerp (gndim g) (goff (garray u)) (offs a (1 # 2) (goff (garray c))) (pval (garray u))
  | None => fun _ => 0%R
  end.
(** Net outflow per unit volume of the cell [ix] when [Fl a] is the flux through its upper face on
    axis [a] (and through the lower one at the previous index). *)
Definition outflow (g : grid) (Fl : nat -> list Z -> R) (ix : list Z) : R :=
  nsum (gndim g) (fun a => (Fl a ix - Fl a (prev a ix)) / hstep g a)%R.
(** A velocity accepted by the advection functions: homogeneous boundary conditions. *)
Definition homogeneous_vec (v : list gvar) : Prop := Forall (fun u => bhom (gbc u) = true) v.
(** Total variation: sum over cells and axes of the jumps to the next cell (wrapping around). *)
Definition total_variation (u : garr) : R :=
  asum (gshape (ggrid u)) (fun ix => nsum (gndim (ggrid u)) (fun a => Rabs (pval u (next a ix) - pval u ix)))%R.
(** The region of limiters known to give a TVD scheme (Sweby). *)
Definition sweby_limiter (phi : R -> R) : Prop :=
  forall r, (0 <= phi r <= 2)%R /\ (phi r <= 2 * r \/ r <= 0)%R /\ (r <= 0 -> phi r = 0)%R.
(** Periodic multilinear interpolation of [F] (values at integer positions) at the real position [xs]. *)
Fixpoint multilinear (F : list Z -> R) (xs : list R) : R :=
  match xs with
  | [] => F []
  | x :: xs' => let k := Int_part x in let w := (x - IZR k)%R in
      ((1 - w) * multilinear (fun ix => F (k :: ix)) xs' + w * multilinear (fun ix => F ((k + 1)%Z :: ix)) xs')%R
  end.
(** Velocity component [a] linearly interpolated to the points of [c]. *)
Definition point_velocity (c : gvar) (v : list gvar) (a : nat) : list Z -> R :=
  match nth_error v a with
  | Some u => lerp (gndim (ggrid (garray c))) (goff (garray u)) (goff (garray c)) (pval (garray u))
  | None => fun _ => 0%R
  end.
(** Where (in cells) the fluid at point [ix] of [c] came from, one time step ago. *)
Definition departure (c : gvar) (v : list gvar) (dt : R) (ix : list Z) : list R :=
  map (fun a => IZR (nth a ix 0%Z) - dt * point_velocity c v a ix / hstep (ggrid (garray c)) a)%R
      (seq 0 (gndim (ggrid (garray c)))).
