(** * Specification vocabulary for C90: interior points of a grid *)
From Verif Require Import Prelude NdArr Grids_model Spec.
Set Implicit Arguments.

(** Bounds of the domain on axis [a]; a grid whose cells have positive widths and fill the domain. *)
Definition lower (g : grid) (a : nat) : R := fst (nth a (gdomain g) (0%R, 0%R)).
Definition upper (g : grid) (a : nat) : R := snd (nth a (gdomain g) (0%R, 0%R)).
Definition box (g : grid) : Prop :=
  wfg g /\ forall a, (a < gndim g)%nat -> (0 < hstep g a /\ upper g a - lower g a = INR (nth a (gshape g) 0%nat) * hstep g a)%R.
(** The point of index [ix] at offset [o] lies strictly inside the domain on every axis. *)
Definition inside (g : grid) (o : list Q) (ix : list Z) : Prop :=
  forall a, (a < gndim g)%nat -> (lower g a < coord g o a ix < upper g a)%R.
(** Half a cell is wider than the tolerance of np.isclose at both ends of the domain: 1e-8 plus 1e-5 of their magnitude. *)
Definition resolved (g : grid) : Prop :=
  forall a b, (a < gndim g)%nat -> b = lower g a \/ b = upper g a -> (1 / 100000000 + 1 / 100000 * Rabs b < hstep g a / 2)%R.
(** The boundary condition at the upper end of axis [a] is not periodic. *)
Definition walled (u : gvar) (a : nat) : Prop := snd (nth a (btypes (gbc u)) (BCOther, BCOther)) <> Periodic.
(** A variable at nodes, cell centres or faces of a grid of boxes, on each axis. *)
Definition aligned (u : gvar) : Prop :=
  box (ggrid (garray u)) /\ forall a, (a < gndim (ggrid (garray u)))%nat ->
    let q := nth a (goff (garray u)) 0%Q in (q == 0 \/ q == 1 # 2 \/ q == 1)%Q.
(** The [x] that are coordinates on axis [a] of the points of [g] at offset [o]. *)
Definition axis_point (g : grid) (o : list Q) (a : nat) (x : R) : Prop :=
  exists i : Z, (0 <= i < Z.of_nat (nth a (gshape g) 0%nat))%Z /\ x = (lower g a + (IZR i + Q2R (nth a o 0%Q)) * hstep g a)%R.
