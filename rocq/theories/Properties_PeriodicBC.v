(** Generated by tools/gen.py from PeriodicBCProps.v: property theorems only. *)
From Verif Require Import Prelude NdArr Grids_model Spec Boundaries_model BoundariesPeriodic FD_model PRep.
From Verif Require Import PeriodicBCProps.
Set Implicit Arguments.

(** C05. Along a periodic axis shift(k) never raises; the result has the same grid and shape, the offset moved by k on that axis only, and entry ix is the old entry at (ix + k) mod n along the axis. Every shift k, padding mode, offset, data; other axes may have any boundary condition. *)
Theorem shift_is_cyclic : forall b u k ax mode,
  wf_garr u -> (ax < gndim (ggrid u))%nat -> periodic_axis b ax ->
  exists w, bc_shift b u k ax mode = Ok w /\
    is_field w (ggrid u) (offs ax (inject_Z k) (goff u))
      (fun ix => get (gdata u) (upd ax ((nth ax ix 0 + k) mod Z.of_nat (nth ax (gshape (ggrid u)) 0%nat))%Z ix)).
Proof. exact (@shift_is_cyclic_lem). Qed.
Print Assumptions shift_is_cyclic.

(** The hypotheses are met by a concrete case. *)
Example shift_is_cyclic_ex :
  let g := mkgrid [3%nat; 2%nat] [1%R; 1%R] [(0%R, 3%R); (0%R, 2%R)] in
  let u := mkga (mkarr [3%nat; 2%nat] (fun ix => IZR (nth 0 ix 0 * 10 + nth 1 ix 0)%Z)) [(1 # 2)%Q; 1%Q] g in
  wf_garr u /\ periodic_axis (homogeneous [(Periodic, Periodic); (Dirichlet, Neumann)]) 0 /\
  exists w, bc_shift (homogeneous [(Periodic, Periodic); (Dirichlet, Neumann)]) u (-7) 0 EXTEND = Ok w /\
            get (gdata w) [0%Z; 1%Z] = 21%R.
Proof. exact (@shift_is_cyclic_ex_lem). Qed.

(** C06. Along a periodic axis, shift(a) then shift(b) is shift(a+b) (data, offset and grid), for all integers a, b. *)
Theorem shift_compose : forall b u i j ax mode1 mode2 mode3,
  wf_garr u -> (ax < gndim (ggrid u))%nat -> periodic_axis b ax ->
  exists w1 w2 w3,
    bc_shift b u i ax mode1 = Ok w1 /\ bc_shift b w1 j ax mode2 = Ok w2 /\
    bc_shift b u (i + j) ax mode3 = Ok w3 /\ same_field w2 w3.
Proof. exact (@shift_compose_lem). Qed.
Print Assumptions shift_compose.

(** The hypotheses are met by a concrete case. *)
Example shift_compose_ex :
  wf_garr (mkga (mkarr [3%nat] (fun ix => IZR (nth 0 ix 0%Z))) [1%Q] (mkgrid [3%nat] [1%R] [(0%R, 3%R)])) /\
  (0 < gndim (mkgrid [3%nat] [1%R] [(0%R, 3%R)]))%nat /\ periodic_axis (periodic_bc 1) 0.
Proof. exact (@shift_compose_ex_lem). Qed.

(** C06. shift(k) then shift(-k) returns the original field. *)
Theorem shift_inverse : forall b u k ax mode1 mode2,
  wf_garr u -> (ax < gndim (ggrid u))%nat -> periodic_axis b ax ->
  exists w1 w2, bc_shift b u k ax mode1 = Ok w1 /\ bc_shift b w1 (- k) ax mode2 = Ok w2 /\ same_field w2 u.
Proof. exact (@shift_inverse_lem). Qed.
Print Assumptions shift_inverse.

(** The hypotheses are met by a concrete case. *)
Example shift_inverse_ex :
  wf_garr (mkga (mkarr [3%nat] (fun ix => IZR (nth 0 ix 0%Z))) [1%Q] (mkgrid [3%nat] [1%R] [(0%R, 3%R)])) /\
  periodic_axis (periodic_bc 1) 0.
Proof. exact (@shift_inverse_ex_lem). Qed.

(** C06. Shifts along two periodic axes commute. *)
Theorem shift_commute : forall b u i j ax bx mode1 mode2 mode3 mode4,
  wf_garr u -> (ax < gndim (ggrid u))%nat -> (bx < gndim (ggrid u))%nat ->
  periodic_axis b ax -> periodic_axis b bx ->
  exists w1 w2 w3 w4,
    bc_shift b u i ax mode1 = Ok w1 /\ bc_shift b w1 j bx mode2 = Ok w2 /\
    bc_shift b u j bx mode3 = Ok w3 /\ bc_shift b w3 i ax mode4 = Ok w4 /\ same_field w2 w4.
Proof. exact (@shift_commute_lem). Qed.
Print Assumptions shift_commute.

(** The hypotheses are met by a concrete case. *)
Example shift_commute_ex :
  let g := mkgrid [3%nat; 2%nat] [1%R; 1%R] [(0%R, 3%R); (0%R, 2%R)] in
  wf_garr (mkga (mkarr [3%nat; 2%nat] (fun ix => IZR (nth 0 ix 0 * 10 + nth 1 ix 0)%Z)) [(1 # 2)%Q; 1%Q] g) /\
  periodic_axis (periodic_bc 2) 0 /\ periodic_axis (periodic_bc 2) 1.
Proof. exact (@shift_commute_ex_lem). Qed.

(** C07. Any history of pads (any axes, any widths, any order) of a variable with periodic axes succeeds and yields exactly the window of the periodic extension of the original data with the total number of cells added below/above on each axis; the offset is lowered by the number of cells added below. *)
Theorem pads_are_periodic_extension : forall b u mode h,
  wf_garr u -> perbc (ggrid u) b ->
  Forall (fun op => (fst op < gndim (ggrid u))%nat /\ (0 <= pad_lo (snd op))%Z /\ (0 <= pad_hi (snd op))%Z) h ->
  exists w, foldM (fun v op => bc_pad b v (snd op) (fst op) mode) u h = Ok w /\
            extension_window u w (hist_lo h) (hist_hi h).
Proof. exact (@pads_are_periodic_extension_lem). Qed.
Print Assumptions pads_are_periodic_extension.

(** The hypotheses are met by a concrete case. *)
Example pads_are_periodic_extension_ex :
  let u := mkga (mkarr [3%nat] (fun ix => IZR (nth 0 ix 0%Z))) [1%Q] (mkgrid [3%nat] [1%R] [(0%R, 3%R)]) in
  exists w, foldM (fun v op => bc_pad (periodic_bc 1) v (snd op) (fst op) EXTEND) u
     [(0%nat, WPair 2 1); (0%nat, WInt (-5)); (0%nat, WInt 2)] = Ok w /\
  shp (gdata w) = [13%nat] /\ get (gdata w) [0%Z] = 2%R /\ get (gdata w) [12%Z] = 2%R /\ get (gdata w) [7%Z] = 0%R.
Proof. exact (@pads_are_periodic_extension_ex_lem). Qed.

(** C07. Special case, one pad: pad((lo, hi), axis) appends lo and hi cells; works when only that axis is periodic. *)
Theorem pad_is_periodic_extension : forall b u lo hi ax mode,
  wf_garr u -> (ax < gndim (ggrid u))%nat -> periodic_axis b ax -> (0 <= lo)%Z -> (0 <= hi)%Z ->
  exists w, bc_pad b u (WPair lo hi) ax mode = Ok w /\ ggrid w = ggrid u /\
    off_eq (goff w) (offs ax (- inject_Z lo) (goff u)) /\
    shp (gdata w) = upd ax (Z.to_nat (lo + Z.of_nat (nth ax (gshape (ggrid u)) 0%nat) + hi)) (gshape (ggrid u)) /\
    forall ix, inb (shp (gdata w)) ix ->
      get (gdata w) ix = get (gdata u) (upd ax ((nth ax ix 0 - lo) mod Z.of_nat (nth ax (gshape (ggrid u)) 0%nat))%Z ix).
Proof. exact (@pad_is_periodic_extension_lem). Qed.
Print Assumptions pad_is_periodic_extension.

(** The hypotheses are met by a concrete case. *)
Example pad_is_periodic_extension_ex :
  let g := mkgrid [3%nat; 2%nat] [1%R; 1%R] [(0%R, 3%R); (0%R, 2%R)] in
  let u := mkga (mkarr [3%nat; 2%nat] (fun ix => IZR (nth 0 ix 0 * 10 + nth 1 ix 0)%Z)) [(1 # 2)%Q; 1%Q] g in
  exists w, bc_pad (channel_flow_bc 2 None) u (WPair 4 0) 0 EXTEND = Ok w /\ get (gdata w) [0%Z; 1%Z] = 21%R.
Proof. exact (@pad_is_periodic_extension_ex_lem). Qed.
