(** * Vocabulary for symmetries of the solvers *)
From Verif Require Import Prelude NdArr Grids_model Spec Boundaries_model TimeStep_model SpecNS.
Set Implicit Arguments.
Local Open Scope Z_scope.

(** A way to lay one periodic problem over another: axis [a] of the copy is axis [to_axis a] of the original
    ([of_axis] is the inverse map), and along axis [b] of the original the origin is moved by [moved_by b] cells. *)
Record placement := mkplacement { to_axis : nat -> nat; of_axis : nat -> nat; moved_by : nat -> Z }.
(** The axes are relabelled one to one. *)
Definition relabelling (n : nat) (p : placement) : Prop :=
  forall a, (a < n)%nat -> (to_axis p a < n)%nat /\ (of_axis p a < n)%nat /\ of_axis p (to_axis p a) = a /\ to_axis p (of_axis p a) = a.
(** The cell of the original grid that lies under cell [ix] of the copy. *)
Definition under (n : nat) (p : placement) (ix : list Z) : list Z :=
  map (fun b => nth (of_axis p b) ix 0 - moved_by p b) (seq 0 n).
(** Pure translations and the identity. *)
Definition translation (L : nat -> Z) : placement := mkplacement (fun a => a) (fun a => a) L.

(** The grid [g'] has the cells of [g], relabelled, each [s] times as wide. *)
Definition copied_grid (p : placement) (s : R) (g g' : grid) : Prop :=
  gndim g' = gndim g /\ relabelling (gndim g) p /\
  forall a, (a < gndim g)%nat -> nth a (gshape g') 0%nat = nth (to_axis p a) (gshape g) 0%nat /\ hstep g' a = (s * hstep g (to_axis p a))%R.
(** Offsets of corresponding points. *)
Definition copied_offset (n : nat) (p : placement) (o o' : list Q) : Prop :=
  length o = n /\ length o' = n /\ forall a, (a < n)%nat -> (nth a o' 0 == nth (to_axis p a) o 0)%Q.
(** The values [F'] are [m] times the values [F] of the cells under them. *)
Definition copied_values (n : nat) (p : placement) (m : R) (F F' : list Z -> R) : Prop :=
  forall ix, length ix = n -> F' ix = (m * F (under n p ix))%R.
(** The same for arrays (extended periodically) and, component by component, for velocities. *)
Definition copied_array (p : placement) (m : R) (u u' : garr) : Prop :=
  copied_values (gndim (ggrid u)) p m (pval u) (pval u').
Definition copied_velocity (n : nat) (p : placement) (m : R) (v v' : list gvar) : Prop :=
  forall i, (i < n)%nat -> copied_values n p m (vval v (to_axis p i)) (vval v' i).
(** The same for two lists of fields. *)
Definition copied_fields (n : nat) (p : placement) (m : R) (l l' : list garr) : Prop :=
  forall i w w', (i < n)%nat -> nth_error l (to_axis p i) = Some w -> nth_error l' i = Some w' -> copied_values n p m (pval w) (pval w').

(** [f] and [f'] treat copies alike: on velocities of which one is [k] times a copy of the other they return fields
    of which one is [m] times a copy of the other. *)
Definition treat_alike (g g' : grid) (o o' : list Q) (bs bs' : list bcs) (p : placement) (k m : R) (f f' : list gvar -> result (list garr)) : Prop :=
  forall v v', periodic_velocity g o bs v -> periodic_velocity g' o' bs' v' -> copied_velocity (gndim g) p k v v' ->
    exists l l' F F', f v = Ok l /\ f' v' = Ok l' /\ fields_at g v l F /\ fields_at g' v' l' F' /\ copied_fields (gndim g) p m l l'.
(** The same when there may be nothing to do on either side. *)
Definition optional_alike (g g' : grid) (o o' : list Q) (bs bs' : list bcs) (p : placement) (k m : R) (f f' : option (list gvar -> result (list garr))) : Prop :=
  match f, f' with
  | None, None => True
  | Some f, Some f' => treat_alike g g' o o' bs bs' p k m f f'
  | _, _ => False
  end.
(** Kinematic viscosities [nu / rho] in the ratio [r] (or no viscosity on either side). *)
Definition viscosities_in_ratio (r rho rho' : R) (nu nu' : option R) : Prop :=
  match nu, nu' with
  | None, None => True
  | Some nu, Some nu' => (nu' / rho' = r * (nu / rho))%R
  | _, _ => False
  end.
