(** * Vocabulary for eddy-viscosity models *)
From Verif Require Import Prelude NdArr Grids_model Spec Boundaries_model FD_model.
Set Implicit Arguments.

(** Strain rate of a staggered periodic velocity: (d_j v_i + d_i v_j) / 2 by forward differences. *)
Definition strain (g : grid) (v : list gvar) (i j : nat) (ix : list Z) : R :=
  (((vval v i (next j ix) - vval v i ix) / hstep g j + (vval v j (next i ix) - vval v j ix) / hstep g i) / 2)%R.
(** "[T] is a square tensor of arrays on grid [g], entry (i, j) half a cell above [o] along i and along j, with values [F i j]". *)
Definition tensor_at (g : grid) (o : list Q) (T : list (list garr)) (F : nat -> nat -> list Z -> R) : Prop :=
  length T = gndim g /\
  forall i row, nth_error T i = Some row -> length row = gndim g /\
    forall j w, nth_error row j = Some w -> is_field w g (offs j (1 # 2) (offs i (1 # 2) o)) (F i j).
(** Values at wrapped indices. *)
Definition wrapped (g : grid) (F : list Z -> R) (ix : list Z) : R := F (wrap (gshape g) ix).
(** Work done on [v] by the accelerations [l]: sum over components and cells. *)
Definition work (g : grid) (v : list gvar) (l : list garr) : R :=
  nsum (gndim g) (fun i => asum (gshape g) (fun ix => (vval v i ix * match nth_error l i with Some w => get (gdata w) ix | None => 0 end)))%R.
(** Strain rate interpolated linearly to the cell centres, and its size sqrt(2 S:S). *)
Definition centred_strain (g : grid) (o : list Q) (v : list gvar) (i j : nat) : list Z -> R :=
  lerp (gndim g) (offs j (1 # 2) (offs i (1 # 2) o)) (cell_center g) (strain g v i j).
Definition strain_size (g : grid) (o : list Q) (v : list gvar) (ix : list Z) : R :=
  sqrt (2 * nsum (gndim g) (fun i => nsum (gndim g) (fun j => centred_strain g o v i j ix ^ 2)))%R.
(** Geometric mean of the cell widths. *)
Definition mean_step (g : grid) : R := Rpower (fold_right Rmult 1%R (gstep g)) (1 / INR (gndim g)).
(** Smagorinsky viscosity (cs * delta)^2 |S|, taken back to the place of entry (i, j). *)
Definition eddy_viscosity (g : grid) (o : list Q) (cs : R) (v : list gvar) (i j : nat) : list Z -> R :=
  lerp (gndim g) (cell_center g) (offs j (1 # 2) (offs i (1 # 2) o)) (fun ix => (cs * mean_step g) ^ 2 * strain_size g o v ix)%R.
