(** * Vocabulary for mirror convolutions *)
From Verif Require Import Prelude NdArr Grids_model Spec SpecTile SpecTower.
Set Implicit Arguments.
Local Open Scope Z_scope.

(** The variables [vs] are periodic fields on the plane grid [g] with offsets that are not negative; field number [k] is channel [k] of [x]. *)
Definition plane_fields (g : grid) (x : arr R) (vs : list gvar) : Prop :=
  (exists n m, gshape g = [n; m] /\ (0 < n)%nat /\ (0 < m)%nat) /\
  forall k v, nth_error vs k = Some v -> perbc g (gbc v) /\ length (goff (garray v)) = 2%nat /\ Forall (fun q => 0 <= q)%Q (goff (garray v)) /\
    is_field (garray v) g (goff (garray v)) (fun ix => get x (ix ++ [Z.of_nat k])).
(** Correlation with the taps of a [k0] by [k1] kernel (taps [rate] cells apart), centred on the cell [ix] of the plane. *)
Definition centred_correlation (g : grid) (k0 k1 cin rate : nat) (w : list Z -> R) (b : Z -> R) (x : arr R) (ix : list Z) (o : Z) : R :=
  dilated_correlation (gshape g) [k0; k1] cin rate 1 w b x ix o.
