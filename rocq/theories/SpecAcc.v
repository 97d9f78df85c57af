(** * Specification vocabulary for C80: smooth functions and their samples on a grid

    Points of space are lists of coordinates; nothing here mentions how the code works. *)
From Verif Require Import Prelude NdArr Grids_model Spec.
Set Implicit Arguments.

(** The point [x] moved by [t] along axis [a]. *)
Definition moved_along (a : nat) (t : R) (x : list R) : list R := upd a (nth a x 0 + t)%R x.
(** [f'] is the partial derivative along axis [a] of [f], a function of [d] coordinates. *)
Definition partial_derivative (d a : nat) (f f' : list R -> R) : Prop :=
  forall x, length x = d -> derivable_pt_lim (fun t => f (moved_along a t x)) 0 (f' x).
(** All partial derivatives of [f], a function of [d] coordinates, of orders 0 to [k] exist and are bounded by [M]. *)
Fixpoint bounded_derivatives (d k : nat) (M : R) (f : list R -> R) : Prop :=
  (forall x, length x = d -> (Rabs (f x) <= M)%R) /\
  match k with
  | O => True
  | S k' => forall a, (a < d)%nat -> exists f', partial_derivative d a f f' /\ bounded_derivatives d k' M f'
  end.
(** The point with index [ix] of an array at offset [o]. *)
Definition point (g : grid) (o : list Q) (ix : list Z) : list R := map (fun a => coord g o a ix) (seq 0 (gndim g)).
(** [f] takes the same value at points that are whole periods of the box apart along every axis. *)
Definition box_periodic (g : grid) (f : list R -> R) : Prop :=
  forall x y, length x = gndim g -> length y = gndim g ->
    (forall a, (a < gndim g)%nat -> exists k : Z, nth a y 0%R = (nth a x 0 + IZR k * (INR (nth a (gshape g) 0%nat) * hstep g a))%R) -> f y = f x.
(** The array holds the values of [f] at its points. *)
Definition samples (u : garr) (f : list R -> R) : Prop :=
  forall ix, inb (gshape (ggrid u)) ix -> get (gdata u) ix = f (point (ggrid u) (goff u) ix).
(** The array lives on [g], at offset [o], and its values are within [e] of those of [f] at its points. *)
Definition within (e : R) (w : garr) (g : grid) (o : list Q) (f : list R -> R) : Prop :=
  ggrid w = g /\ off_eq (goff w) o /\ shp (gdata w) = gshape g /\
  forall ix, inb (gshape g) ix -> (Rabs (get (gdata w) ix - f (point g o ix)) <= e)%R.
(** Sum of the squared cell widths. *)
Definition h2 (g : grid) : R := nsum (gndim g) (fun a => hstep g a ^ 2)%R.
(** Component [a] of the velocity holds the values of [fv a], a function periodic in the box whose partial derivatives up to order [k] are bounded by [M]. *)
Definition smooth_velocity (g : grid) (k : nat) (M : R) (v : list gvar) (fv : nat -> list R -> R) : Prop :=
  forall a u, nth_error v a = Some u -> box_periodic g (fv a) /\ samples (garray u) (fv a) /\ bounded_derivatives (gndim g) k M (fv a).
