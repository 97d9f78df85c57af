(** * Specification vocabulary for C87: work done on a flow *)
From Verif Require Import Prelude NdArr Grids_model Spec.
Set Implicit Arguments.

(** Rate of work of the accelerations [F] (one per component, at its offset) on the velocity [v], and the squared gradients of all components. *)
Definition work (g : grid) (v : list gvar) (F : nat -> list Z -> R) : R :=
  nsum (gndim g) (fun i => asum (gshape g) (fun ix => velocity_at v i ix * F i ix))%R.
Definition gradient_energy (g : grid) (v : list gvar) : R :=
  nsum (gndim g) (fun i => nsum (gndim g) (fun a => asum (gshape g) (fun ix =>
    ((velocity_at v i (wrap (gshape g) (next a ix)) - velocity_at v i ix) / hstep g a) ^ 2)))%R.
