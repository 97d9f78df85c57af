(** Generated by tools/gen.py from WallEdgePadProps.v: property theorems only. *)
From Verif Require Import Prelude NdArr Grids_model Spec Boundaries_model BoundariesPeriodic WallBC PRep PeriodicBCProps WallBCProps ImposeProps WallFD.
From Verif Require Import WallEdgePadProps.
Local Open Scope Z_scope.
Set Implicit Arguments.

(** C08. Padding edge-aligned data by w cells above the upper Dirichlet wall, where the wall is entry q of the result: entries below q are the data, entry q is the wall value hi, and the entries beyond it are hi with EXTEND and, with MIRROR, hi minus the mirror image about the wall (so that, unlike for cell-centred data, a ghost and its mirror image average to hi/2, not to hi). *)
Theorem edge_padding_above : forall (b : bcs) (u : garr) (ax : nat) (lo hi : R) (top : bool) (w : Z) (mode : padmode),
  wf_garr u -> (ax < gndim (ggrid u))%nat -> edge_walls b u ax lo hi top -> pad_mode_ok b mode ->
  let n := Z.of_nat (nth ax (gshape (ggrid u)) 0%nat) in let q := if top then n - 1 else n in
  1 <= w -> n + w - 1 <= 2 * q ->
  exists r, bc_pad b u (WInt w) ax mode = Ok r /\ ggrid r = ggrid u /\ off_eq (goff r) (goff u) /\ shp (gdata r) = upd ax (Z.to_nat (n + w)) (gshape (ggrid u)) /\
    forall ix, (ax < length ix)%nat -> 0 <= nth ax ix 0 < n + w ->
      (nth ax ix 0 < q -> get (gdata r) ix = get (gdata u) ix) /\
      (nth ax ix 0 = q -> get (gdata r) ix = hi) /\
      (nth ax ix 0 > q -> get (gdata r) ix = ghost_value mode hi (get (gdata u) (upd ax (2 * q - nth ax ix 0) ix))).
Proof. exact (@edge_padding_above_lem). Qed.
Print Assumptions edge_padding_above.

(** The hypotheses are met by a concrete case. *)
Example edge_padding_above_ex : wf_garr exv /\ edge_walls box_bc exv 1 5 7 true /\ pad_mode_ok box_bc MIRROR /\
  exists r, bc_pad box_bc exv (WInt 2) 1 MIRROR = Ok r /\ shp (gdata r) = [2; 5]%nat /\ get (gdata r) [1; 2] = 7%R /\ get (gdata r) [1; 3] = (-4)%R /\ get (gdata r) [1; 4] = (-3)%R.
Proof. exact (@edge_padding_above_ex_lem). Qed.

(** C08. The same below the lower Dirichlet wall: padding by w cells moves the data up by w entries and lowers the offset by w; with the wall at entry q, entries above q are the data, entry q is the wall value lo, and the entries below it are lo with EXTEND and lo minus the mirror image about the wall with MIRROR. *)
Theorem edge_padding_below : forall (b : bcs) (u : garr) (ax : nat) (lo hi : R) (top : bool) (w : Z) (mode : padmode),
  wf_garr u -> (ax < gndim (ggrid u))%nat -> edge_walls b u ax lo hi top -> pad_mode_ok b mode ->
  let n := Z.of_nat (nth ax (gshape (ggrid u)) 0%nat) in let q := if top then w - 1 else w in
  1 <= w -> 2 * q - w < n ->
  exists r, bc_pad b u (WInt (- w)) ax mode = Ok r /\ ggrid r = ggrid u /\ off_eq (goff r) (upd ax (nth ax (goff u) 0 - inject_Z w)%Q (goff u)) /\ shp (gdata r) = upd ax (Z.to_nat (n + w)) (gshape (ggrid u)) /\
    forall ix, (ax < length ix)%nat -> 0 <= nth ax ix 0 < n + w ->
      (nth ax ix 0 > q -> get (gdata r) ix = get (gdata u) (upd ax (nth ax ix 0 - w) ix)) /\
      (nth ax ix 0 = q -> get (gdata r) ix = lo) /\
      (nth ax ix 0 < q -> get (gdata r) ix = ghost_value mode lo (get (gdata u) (upd ax (2 * q - nth ax ix 0 - w) ix))).
Proof. exact (@edge_padding_below_lem). Qed.
Print Assumptions edge_padding_below.

(** The hypotheses are met by a concrete case. *)
Example edge_padding_below_ex : wf_garr exv /\ edge_walls box_bc exv 1 5 7 true /\ pad_mode_ok box_bc MIRROR /\
  exists r, bc_pad box_bc exv (WInt (-2)) 1 MIRROR = Ok r /\ shp (gdata r) = [2; 5]%nat /\ get (gdata r) [1; 0] = (-5)%R /\ get (gdata r) [1; 1] = 5%R /\ get (gdata r) [1; 4] = 12%R.
Proof. exact (@edge_padding_below_ex_lem). Qed.

(** C08. Refuted for edge-aligned data: with MIRROR padding a ghost and its mirror image about the wall do not average to the wall value, unless that value is 0 (the padded value is that of the wall minus the mirror image, where twice the wall value was meant). *)
Theorem edge_mirror_average_refuted : ~ forall (b : bcs) (u : garr) (ax : nat) (lo hi : R) (top : bool) (w : Z) (r : garr) (ix : list Z),
  wf_garr u -> (ax < gndim (ggrid u))%nat -> edge_walls b u ax lo hi top -> pad_mode_ok b MIRROR ->
  let n := Z.of_nat (nth ax (gshape (ggrid u)) 0%nat) in let q := if top then n - 1 else n in
  1 <= w -> n + w - 1 <= 2 * q -> bc_pad b u (WInt w) ax MIRROR = Ok r ->
  (ax < length ix)%nat -> q < nth ax ix 0 < n + w ->
  ((get (gdata r) ix + get (gdata r) (upd ax (2 * q - nth ax ix 0)%Z ix)) / 2 = hi)%R.
Proof. exact (@edge_mirror_average_refuted_lem). Qed.
Print Assumptions edge_mirror_average_refuted.
