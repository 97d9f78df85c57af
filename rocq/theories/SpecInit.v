(** * Vocabulary for initial velocity fields *)
From Verif Require Import Prelude NdArr Grids_model Spec.
Set Implicit Arguments.

(** The length of the vector of the components at index [ix]; and "[m] is the largest of these lengths". *)
Definition speed (v : list gvar) (ix : list Z) : R := sqrt (nsum (length v) (fun i => vval v i ix ^ 2)%R).
Definition is_max_speed (g : grid) (v : list gvar) (m : R) : Prop :=
  (forall ix, inb (gshape g) ix -> (speed v ix <= m)%R) /\ exists ix, inb (gshape g) ix /\ speed v ix = m.
(** "[fn] applies the function [f] of d coordinates entry by entry" to any mesh arrays of shape [s]. *)
Definition elementwise (s : list nat) (f : list R -> R) (fn : list (arr R) -> result (arr R)) : Prop :=
  forall m, length m = length s -> (forall x, In x m -> shp x = s) ->
    exists a, fn m = Ok a /\ shp a = s /\ forall ix, inb s ix -> get a ix = f (map (fun x => get x ix) m).
(** The log-normal spectrum with mode [peak] and log-variance 1/4, divided by the measure of the sphere of wave vectors of
    length [k] in [d] dimensions (up to constants): exp(-2 (ln(k / peak) - 1/4)^2) / k^d. *)
Definition initial_spectrum (peak : R) (d : nat) (k : R) : R := (exp (- 2 * (ln (k / peak) - 1 / 4) ^ 2) / k ^ d)%R.
