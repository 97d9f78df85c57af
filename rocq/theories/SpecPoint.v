(** * Vocabulary for interpolation at a point *)
From Verif Require Import Prelude NdArr Grids_model Spec Point_model.
From Coq Require Import Qreals.
Set Implicit Arguments.
Local Open Scope R_scope.

(** Lower end and length of the domain along axis [i]. *)
Definition low (g : grid) (i : nat) : R := fst (nth i (gdomain g) (0, 0)).
Definition len (g : grid) (i : nat) : R := snd (nth i (gdomain g) (0, 0)) - fst (nth i (gdomain g) (0, 0)).
(** A grid whose domain has positive length along every axis, with at least one cell. *)
Definition has_domain (g : grid) : Prop :=
  length (gdomain g) = gndim g /\ forall i, (i < gndim g)%nat -> (0 < nth i (gshape g) 0)%nat /\ 0 < len g i.
(** Width of the cells along axis [i], from the domain. *)
Definition cell_width (g : grid) (i : nat) : R := len g i / INR (nth i (gshape g) 0%nat).
(** The point at offset [o] (in cells) of cell [ix]. *)
Definition cell_point (g : grid) (o : list Q) (ix : list Z) : list R :=
  map (fun i => low g i + (IZR (nth i ix 0%Z) + Q2R (nth i o 0%Q)) * cell_width g i) (seq 0 (gndim g)).
(** Where a point lies with respect to the nodes of an array at offset [o], in cells: node [ix] is at position [ix]. *)
Definition positions (g : grid) (o : list Q) (p : list R) : list R :=
  map (fun i => (nth i p 0 - low g i) / cell_width g i - Q2R (nth i o 0%Q)) (seq 0 (gndim g)).
(** [c] holds an array of the shape of its grid at an offset with one entry per axis. *)
Definition on_grid (c : garr) : Prop := shp (gdata c) = gshape (ggrid c) /\ length (goff c) = gndim (ggrid c).
(** How a line of [n] values is continued at both ends, as pictured in the documentation. *)
Definition continues (mode : pmode) (n : nat) (f : Z -> R) : Prop :=
  let n := Z.of_nat n in
  match mode with
  | PMWrap => forall k, f (k + n)%Z = f k                                                  (* a b c d | a b c d | a b c d *)
  | PMNearest => forall k, ((k < 0)%Z -> f k = f 0%Z) /\ ((n <= k)%Z -> f k = f (n - 1)%Z) (* a a a a | a b c d | d d d d *)
  | PMReflect => forall k, f (-1 - k)%Z = f k /\ f (2 * n - 1 - k)%Z = f k                 (* d c b a | a b c d | d c b a *)
  | PMMirror => forall k, f (- k)%Z = f k /\ f (2 * (n - 1) - k)%Z = f k                   (*   d c b | a b c d | c b a *)
  | PMConstant | PMOther => True
  end.
(** [E] continues the data [D], given inside the shape [s], to all integer positions. *)
Definition extends (mode : pmode) (cval : R) (s : list nat) (D E : list Z -> R) : Prop :=
  (forall ix, inb s ix -> E ix = D ix) /\
  match mode with
  | PMConstant => forall ix, length ix = length s -> ~ inb s ix -> E ix = cval
  | _ => forall i ix, (i < length s)%nat -> length ix = length s -> continues mode (nth i s 0%nat) (fun k => E (upd i k ix))
  end.
(** The documented modes; 'mirror' needs two cells along every axis. *)
Definition mode_ok (mode : pmode) (s : list nat) : Prop :=
  match mode with PMOther => False | PMMirror => forall i, (i < length s)%nat -> (2 <= nth i s 0)%nat | _ => True end.
(** The affine function [a + b . p]. *)
Definition affine (d : nat) (a : R) (b : nat -> R) (p : list R) : R := a + nsum d (fun i => b i * nth i p 0).
(** The point of the segment from the first to the last node nearest to [x], along axis [i] of an array at offset [o]. *)
Definition clamp (lo hi x : R) : R := Rmax lo (Rmin x hi).
Definition clamped (g : grid) (o : list Q) (p : list R) : list R :=
  map (fun i => clamp (low g i + Q2R (nth i o 0%Q) * cell_width g i)
                      (low g i + (INR (nth i (gshape g) 0%nat) - 1 + Q2R (nth i o 0%Q)) * cell_width g i) (nth i p 0)) (seq 0 (gndim g)).
