(** * Specification vocabulary for C86: uniform flow, one Lax-Wendroff step and mean square deviations *)
From Verif Require Import Prelude NdArr Grids_model Spec SpecAcc.
Set Implicit Arguments.

(** The velocity is [V] along axis [ax] and zero along the others, in every cell. *)
Definition uniform_flow (g : grid) (ax : nat) (V : R) (v : list gvar) : Prop :=
  periodic_vec g v /\ homogeneous_vec v /\
  forall a u ix, nth_error v a = Some u -> inb (gshape g) ix -> get (gdata (garray u)) ix = if (a =? ax)%nat then V else 0%R.
(** The classical one-step Lax-Wendroff value with Courant number [C] from the cell and its two neighbours along [ax]. *)
Definition lax_wendroff_update (ax : nat) (C : R) (F : list Z -> R) (ix : list Z) : R :=
  (F ix - C / 2 * (F (next ax ix) - F (prev ax ix)) + C ^ 2 / 2 * (F (next ax ix) - 2 * F ix + F (prev ax ix)))%R.
(** Sum over all cells of the squared values. *)
Definition sum_squares (u : garr) : R := asum (gshape (ggrid u)) (fun ix => get (gdata u) ix ^ 2)%R.
(** The array lives on [g], at offset [o], and the root mean square over the cells of its deviation from [f] is at most [e]. *)
Definition rms_within (e : R) (w : garr) (g : grid) (o : list Q) (f : list R -> R) : Prop :=
  ggrid w = g /\ off_eq (goff w) o /\ shp (gdata w) = gshape g /\
  (asum (gshape g) (fun ix => (get (gdata w) ix - f (point g o ix)) ^ 2) <= INR (asize (gshape g)) * e ^ 2)%R.
