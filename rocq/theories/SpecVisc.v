(** * Vocabulary for learned eddy viscosities *)
From Verif Require Import Prelude NdArr Grids_model Spec Boundaries_model FD_model TimeStep_model SpecNS SpecSub.
Set Implicit Arguments.

(** [unique] lists the distinct offsets of a list in some order: Python's list(set(.)). *)
Definition lists_distinct (unique : list (list Q) -> list (list Q)) : Prop :=
  forall l, (forall x, In x l -> exists y, In y (unique l) /\ off_eq x y) /\ (forall y, In y (unique l) -> In y l) /\
    (forall i j a b, nth_error (unique l) i = Some a -> nth_error (unique l) j = Some b -> off_eq a b -> i = j).
(** The array [x] has [n] channels, the k-th holding the values [F k] on the grid. *)
Definition channels (g : grid) (n : nat) (x : arr R) (F : nat -> list Z -> R) : Prop :=
  shp x = gshape g ++ [n] /\ forall k ix, (k < n)%nat -> inb (gshape g) ix -> get x (ix ++ [Z.of_nat k]) = F k ix.
(** Channel [k] of an array of channels. *)
Definition channel (y : arr R) (k : nat) (ix : list Z) : R := get y (ix ++ [Z.of_nat k]).
(** A viscosity [nu] known at the cell centres, interpolated linearly to the place of entry (i, j) of the strain rate. *)
Definition spread (g : grid) (o : list Q) (nu : list Z -> R) (i j : nat) : list Z -> R :=
  lerp (gndim g) (cell_center g) (offs j (1 # 2) (offs i (1 # 2) o)) (wrapped g nu).
(** All outputs of the network are nonnegative. *)
Definition nonnegative_outputs (tower : nat -> arr R -> result (arr R)) : Prop :=
  forall n x y ix, tower n x = Ok y -> inb (shp y) ix -> (0 <= get y ix)%R.
(** A term that never does positive work on the flow. *)
Definition takes_energy (g : grid) (o : list Q) (bs : list bcs) (f : list gvar -> result (list garr)) : Prop :=
  forall w l, periodic_velocity g o bs w -> f w = Ok l -> (work g w l <= 0)%R.
