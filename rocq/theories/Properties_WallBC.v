(** Generated by tools/gen.py from WallBCProps.v: property theorems only. *)
From Verif Require Import Prelude NdArr Grids_model Spec Boundaries_model BoundariesPeriodic WallBC PRep PeriodicBCProps.
From Verif Require Import WallBCProps.
Local Open Scope Z_scope.
Set Implicit Arguments.

(** C08. Two-sided MIRROR padding of cell-centred data between Dirichlet walls with values v1 and v2: the original cells are kept, and every ghost cell averages with its mirror image across the wall (when that is a cell of the array) to the wall value. *)
Theorem dirichlet_mirror_padding : forall b u lo hi ax v1 v2,
  wf_garr u -> (ax < gndim (ggrid u))%nat -> centred u ax ->
  lower_wall b ax Dirichlet v1 -> upper_wall b ax Dirichlet v2 -> (0 <= lo)%Z -> (0 <= hi)%Z ->
  let n := Z.of_nat (nth ax (gshape (ggrid u)) 0%nat) in
  exists r, bc_pad b u (WPair lo hi) ax MIRROR = Ok r /\ extends u r ax lo hi /\
    forall ix, inb (shp (gdata r)) ix ->
      (let m := (2 * lo - 1 - nth ax ix 0)%Z in
       (lo <= m < lo + n)%Z -> wall_holds Dirichlet v1 (hstep (ggrid u) ax) (get (gdata r) ix) (get (gdata r) (upd ax m ix))) /\
      (let m := (2 * (lo + n) - 1 - nth ax ix 0)%Z in
       (lo <= m < lo + n)%Z -> wall_holds Dirichlet v2 (hstep (ggrid u) ax) (get (gdata r) (upd ax m ix)) (get (gdata r) ix)).
Proof. exact (@dirichlet_mirror_padding_lem). Qed.
Print Assumptions dirichlet_mirror_padding.

(** The hypotheses are met by a concrete case. *)
Example dirichlet_mirror_padding_ex :
  exists r, bc_pad (exb Dirichlet Dirichlet) exu (WPair 2 1) 1 MIRROR = Ok r /\
    ((get (gdata r) (ix2 1 0) + get (gdata r) (ix2 1 3)) / 2 = 5)%R /\
    ((get (gdata r) (ix2 1 4) + get (gdata r) (ix2 1 5)) / 2 = 7)%R.
Proof. exact (@dirichlet_mirror_padding_ex_lem). Qed.

(** C08. Two-sided EXTEND padding (the default mode) of cell-centred data between walls of any kind: the original cells are kept, and every ghost cell satisfies the wall condition together with the cell next to the wall: Dirichlet averages to the value, Neumann has the value as difference quotient. *)
Theorem wall_extend_padding : forall b u lo hi ax t1 v1 t2 v2,
  wf_garr u -> (ax < gndim (ggrid u))%nat -> centred u ax ->
  lower_wall b ax t1 v1 -> upper_wall b ax t2 v2 ->
  (t1 = Dirichlet \/ t1 = Neumann) -> (t2 = Dirichlet \/ t2 = Neumann) -> (0 <= lo)%Z -> (0 <= hi)%Z ->
  let n := Z.of_nat (nth ax (gshape (ggrid u)) 0%nat) in
  exists r, bc_pad b u (WPair lo hi) ax EXTEND = Ok r /\ extends u r ax lo hi /\
    forall ix, inb (shp (gdata r)) ix ->
      ((nth ax ix 0 < lo)%Z ->
         wall_holds t1 v1 (hstep (ggrid u) ax) (get (gdata r) ix) (get (gdata r) (upd ax lo ix))) /\
      ((lo + n <= nth ax ix 0)%Z ->
         wall_holds t2 v2 (hstep (ggrid u) ax) (get (gdata r) (upd ax (lo + n - 1)%Z ix)) (get (gdata r) ix)).
Proof. exact (@wall_extend_padding_lem). Qed.
Print Assumptions wall_extend_padding.

(** The hypotheses are met by a concrete case. *)
Example wall_extend_padding_ex :
  exists r, bc_pad (exb Dirichlet Neumann) exu (WPair 2 1) 1 EXTEND = Ok r /\
    ((get (gdata r) (ix2 1 0) + get (gdata r) (ix2 1 2)) / 2 = 5)%R /\
    ((get (gdata r) (ix2 1 5) - get (gdata r) (ix2 1 4)) / (1/2) = 7)%R.
Proof. exact (@wall_extend_padding_ex_lem). Qed.

(** C10. Padding cell-centred data by a single cell below a Dirichlet or Neumann wall, in any mode and whatever the other side carries: the ghost cell and the first cell satisfy the wall condition (for Neumann the one-sided difference across the wall equals the prescribed derivative). *)
Theorem lower_ghost_cell : forall b u ax mode t v,
  wf_garr u -> (ax < gndim (ggrid u))%nat -> centred u ax ->
  lower_wall b ax t v -> (t = Dirichlet \/ t = Neumann) ->
  exists r, bc_pad b u (WInt (-1)) ax mode = Ok r /\ extends u r ax 1 0 /\
    forall ix, inb (shp (gdata r)) ix -> nth ax ix 0%Z = 0%Z ->
      wall_holds t v (hstep (ggrid u) ax) (get (gdata r) ix) (get (gdata r) (next ax ix)).
Proof. exact (@lower_ghost_cell_lem). Qed.
Print Assumptions lower_ghost_cell.

(** The hypotheses are met by a concrete case. *)
Example lower_ghost_cell_ex :
  exists r, bc_pad (exb Neumann BCOther) exu (WInt (-1)) 1 EXTEND = Ok r /\
    ((get (gdata r) (ix2 1 1) - get (gdata r) (ix2 1 0)) / (1/2) = 5)%R.
Proof. exact (@lower_ghost_cell_ex_lem). Qed.

(** C10. The same above the upper wall. *)
Theorem upper_ghost_cell : forall b u ax mode t v,
  wf_garr u -> (ax < gndim (ggrid u))%nat -> centred u ax ->
  upper_wall b ax t v -> (t = Dirichlet \/ t = Neumann) ->
  let n := Z.of_nat (nth ax (gshape (ggrid u)) 0%nat) in
  exists r, bc_pad b u (WInt 1) ax mode = Ok r /\ extends u r ax 0 1 /\
    forall ix, inb (shp (gdata r)) ix -> nth ax ix 0%Z = n ->
      wall_holds t v (hstep (ggrid u) ax) (get (gdata r) (prev ax ix)) (get (gdata r) ix).
Proof. exact (@upper_ghost_cell_lem). Qed.
Print Assumptions upper_ghost_cell.

(** The hypotheses are met by a concrete case. *)
Example upper_ghost_cell_ex :
  exists r, bc_pad (exb BCOther Neumann) exu (WInt 1) 1 EXTEND = Ok r /\
    ((get (gdata r) (ix2 1 3) - get (gdata r) (ix2 1 2)) / (1/2) = 7)%R.
Proof. exact (@upper_ghost_cell_ex_lem). Qed.

(** C08. shift(+k) of cell-centred data towards an upper wall (k >= 1, default mode, or k = 1 in any mode): entries move down by k, offset increases by k, and the k entries that come from beyond the wall satisfy the wall condition together with the last cell. *)
Theorem wall_shift_up : forall b u k ax mode t v,
  wf_garr u -> (ax < gndim (ggrid u))%nat -> centred u ax ->
  upper_wall b ax t v -> (t = Dirichlet \/ t = Neumann) ->
  (1 <= k)%Z -> (mode = EXTEND \/ k = 1%Z) ->
  let n := Z.of_nat (nth ax (gshape (ggrid u)) 0%nat) in
  exists r, bc_shift b u k ax mode = Ok r /\ ggrid r = ggrid u /\
    off_eq (goff r) (offs ax (inject_Z k) (goff u)) /\ shp (gdata r) = gshape (ggrid u) /\
    forall ix, inb (gshape (ggrid u)) ix ->
      ((nth ax ix 0 + k < n)%Z -> get (gdata r) ix = get (gdata u) (shiftix ax k ix)) /\
      ((n <= nth ax ix 0 + k)%Z ->
         wall_holds t v (hstep (ggrid u) ax) (get (gdata u) (upd ax (n - 1)%Z ix)) (get (gdata r) ix)).
Proof. exact (@wall_shift_up_lem). Qed.
Print Assumptions wall_shift_up.

(** The hypotheses are met by a concrete case. *)
Example wall_shift_up_ex :
  exists r, bc_shift (exb BCOther Dirichlet) exu 2 1 EXTEND = Ok r /\
    get (gdata r) (ix2 1 0) = 12%R /\ ((get (gdata exu) (ix2 1 2) + get (gdata r) (ix2 1 2)) / 2 = 7)%R.
Proof. exact (@wall_shift_up_ex_lem). Qed.

(** C08. shift(-k) towards a lower wall, likewise. *)
Theorem wall_shift_down : forall b u k ax mode t v,
  wf_garr u -> (ax < gndim (ggrid u))%nat -> centred u ax ->
  lower_wall b ax t v -> (t = Dirichlet \/ t = Neumann) ->
  (1 <= k)%Z -> (mode = EXTEND \/ k = 1%Z) ->
  exists r, bc_shift b u (- k) ax mode = Ok r /\ ggrid r = ggrid u /\
    off_eq (goff r) (offs ax (inject_Z (- k)) (goff u)) /\ shp (gdata r) = gshape (ggrid u) /\
    forall ix, inb (gshape (ggrid u)) ix ->
      ((k <= nth ax ix 0)%Z -> get (gdata r) ix = get (gdata u) (shiftix ax (- k) ix)) /\
      ((nth ax ix 0 < k)%Z ->
         wall_holds t v (hstep (ggrid u) ax) (get (gdata r) ix) (get (gdata u) (upd ax 0%Z ix))).
Proof. exact (@wall_shift_down_lem). Qed.
Print Assumptions wall_shift_down.

(** The hypotheses are met by a concrete case. *)
Example wall_shift_down_ex :
  exists r, bc_shift (exb Neumann BCOther) exu (-2) 1 EXTEND = Ok r /\
    get (gdata r) (ix2 1 2) = 10%R /\ ((get (gdata exu) (ix2 1 0) - get (gdata r) (ix2 1 1)) / (1/2) = 5)%R.
Proof. exact (@wall_shift_down_ex_lem). Qed.

(** C10. Edge-aligned data with a lower Neumann condition: pad and impose_bc raise; shift towards a Neumann side raises. *)
Theorem neumann_edge_raises : forall b u ax mode z,
  wf_garr u -> (ax < gndim (ggrid u))%nat -> (nth ax (goff u) 0 == inject_Z z)%Q ->
  (forall v w, lower_wall b ax Neumann v ->
     (exists e, bc_pad b u w ax mode = Err e) /\
     (forall k, (1 <= k)%Z -> exists e, bc_shift b u (- k) ax mode = Err e)) /\
  (forall v, upper_wall b ax Neumann v ->
     forall k, (1 <= k)%Z -> exists e, bc_shift b u k ax mode = Err e).
Proof. exact (@neumann_edge_raises_lem). Qed.
Print Assumptions neumann_edge_raises.

(** The hypotheses are met by a concrete case. *)
Example neumann_edge_raises_ex :
  let u := mkga (gdata exu) [(1 # 2)%Q; 1%Q] exg in
  wf_garr u /\ (1 < gndim (ggrid u))%nat /\ (nth 1 (goff u) 0 == inject_Z 1)%Q /\
  lower_wall (exb Neumann Neumann) 1 Neumann 5 /\ upper_wall (exb Neumann Neumann) 1 Neumann 7.
Proof. exact (@neumann_edge_raises_ex_lem). Qed.
