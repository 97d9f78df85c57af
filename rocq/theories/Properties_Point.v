(** Generated by tools/gen.py from PointProps.v: property theorems only. *)
From Coq Require Import Qreals.
From Verif Require Import Prelude NdArr Grids_model Spec Boundaries_model FD_model PRep FDProofs FastDiagProofs Interp_model InterpProofs InterpProps SemiLagProps Point_model SpecPoint.
From Verif Require Import PointProps.
Local Open Scope R_scope.
Set Implicit Arguments.

(** C75. Linear interpolation at a point (order 1) multilinearly interpolates the data continued beyond the array as the documentation of the mode pictures it (wrapped, replicated, reflected about the edge or the centre of the last cell, or constant), at the position of the point with respect to the nodes: for every continuation satisfying the picture, the value returned is its multilinear interpolant. *)
Theorem point_interpolation_linear : forall c p mode cval E, has_domain (ggrid c) -> on_grid c -> length p = gndim (ggrid c) -> mode_ok mode (gshape (ggrid c)) ->
  extends mode cval (gshape (ggrid c)) (get (gdata c)) E ->
  point_interpolation p c 1 mode cval = Ok (multilinear E (positions (ggrid c) (goff c) p)).
Proof. exact (@point_interpolation_linear_lem). Qed.
Print Assumptions point_interpolation_linear.

(** C75. Such a continuation exists for every mode, every array with at least one cell (two for 'mirror') along every axis. *)
Theorem point_continuation_exists : forall mode cval s (D : list Z -> R), mode_ok mode s -> (forall i, (i < length s)%nat -> (0 < nth i s 0)%nat) ->
  exists E, extends mode cval s D E.
Proof. exact (@point_continuation_exists_lem). Qed.
Print Assumptions point_continuation_exists.

(** The hypotheses are met by a concrete case. *)
Example point_continuation_exists_ex : mode_ok PMMirror [4%nat; 2%nat] /\ forall i, (i < 2)%nat -> (0 < nth i [4%nat; 2%nat] 0)%nat.
Proof. exact (@point_continuation_exists_ex_lem). Qed.

(** The hypotheses are met by a concrete case. *)
Example point_interpolation_linear_ex : has_domain (ggrid (garray ipc)) /\ on_grid (garray ipc) /\ length [7/2; -1] = gndim (ggrid (garray ipc)) /\
  exists E, extends PMMirror 0 (gshape (ggrid (garray ipc))) (get (gdata (garray ipc))) E.
Proof. exact (@point_interpolation_linear_ex_lem). Qed.

(** C75. Nearest interpolation at a point (order 0) returns the value, in the data continued beyond the array as the documentation of the mode pictures it, of the node less than half a cell away along every axis. *)
Theorem point_interpolation_nearest : forall c p mode cval E ix, has_domain (ggrid c) -> on_grid c -> length p = gndim (ggrid c) -> mode_ok mode (gshape (ggrid c)) ->
  extends mode cval (gshape (ggrid c)) (get (gdata c)) E ->
  length ix = gndim (ggrid c) -> (forall i, (i < gndim (ggrid c))%nat -> Rabs (nth i (positions (ggrid c) (goff c) p) 0 - IZR (nth i ix 0%Z)) < 1 / 2) ->
  point_interpolation p c 0 mode cval = Ok (E ix).
Proof. exact (@point_interpolation_nearest_lem). Qed.
Print Assumptions point_interpolation_nearest.

(** The hypotheses are met by a concrete case. *)
Example point_interpolation_nearest_ex : has_domain (ggrid (garray ipc)) /\ on_grid (garray ipc) /\
  (forall i, (i < gndim (ggrid (garray ipc)))%nat -> Rabs (nth i (positions (ggrid (garray ipc)) (goff (garray ipc)) [9/4; -3]) 0 - IZR (nth i [2; -2]%Z 0%Z)) < 1 / 2).
Proof. exact (@point_interpolation_nearest_ex_lem). Qed.

(** C75. At the point of one of its own cells, point interpolation of order 0 or 1 returns the value stored there, in every documented mode. *)
Theorem point_interpolation_at_node : forall c ix order mode cval, has_domain (ggrid c) -> on_grid c -> mode_ok mode (gshape (ggrid c)) -> (order <= 1)%nat ->
  inb (gshape (ggrid c)) ix -> point_interpolation (cell_point (ggrid c) (goff c) ix) c order mode cval = Ok (get (gdata c) ix).
Proof. exact (@point_interpolation_at_node_lem). Qed.
Print Assumptions point_interpolation_at_node.

(** The hypotheses are met by a concrete case. *)
Example point_interpolation_at_node_ex : has_domain (ggrid (garray ipc)) /\ on_grid (garray ipc) /\ mode_ok PMReflect (gshape (ggrid (garray ipc))) /\ inb (gshape (ggrid (garray ipc))) [3; 1]%Z /\
  cell_point (ggrid (garray ipc)) (goff (garray ipc)) [3; 1]%Z = [7/2; 3].
Proof. exact (@point_interpolation_at_node_ex_lem). Qed.

(** C75. Linear interpolation at a point reproduces affine data exactly at every point between the first and the last node along every axis, in every documented mode. *)
Theorem point_interpolation_affine : forall c p mode cval a b, has_domain (ggrid c) -> on_grid c -> length p = gndim (ggrid c) -> mode_ok mode (gshape (ggrid c)) ->
  (forall ix, inb (gshape (ggrid c)) ix -> get (gdata c) ix = affine (gndim (ggrid c)) a b (cell_point (ggrid c) (goff c) ix)) ->
  (forall i, (i < gndim (ggrid c))%nat -> 0 <= nth i (positions (ggrid c) (goff c) p) 0 <= INR (nth i (gshape (ggrid c)) 0%nat) - 1) ->
  point_interpolation p c 1 mode cval = Ok (affine (gndim (ggrid c)) a b p).
Proof. exact (@point_interpolation_affine_lem). Qed.
Print Assumptions point_interpolation_affine.

(** The hypotheses are met by a concrete case. *)
Example point_interpolation_affine_ex : has_domain (ggrid pta) /\ on_grid pta /\ mode_ok PMConstant (gshape (ggrid pta)) /\
  (forall ix, inb (gshape (ggrid pta)) ix -> get (gdata pta) ix = affine (gndim (ggrid pta)) 2 (fun _ => 3) (cell_point (ggrid pta) (goff pta) ix)) /\
  (forall i, (i < gndim (ggrid pta))%nat -> 0 <= nth i (positions (ggrid pta) (goff pta) [7/2]) 0 <= INR (nth i (gshape (ggrid pta)) 0%nat) - 1).
Proof. exact (@point_interpolation_affine_ex_lem). Qed.

(** C75. Interpolation at a point, at any place inside or outside the domain, of order 0 or 1 and in every documented mode, never leaves the range of the data (in mode 'constant', of the data and the fill value). *)
Theorem point_interpolation_bounded : forall c p order mode cval m M v, has_domain (ggrid c) -> on_grid c -> length p = gndim (ggrid c) -> mode_ok mode (gshape (ggrid c)) ->
  (order <= 1)%nat -> (mode = PMConstant -> m <= cval <= M) -> (forall ix, inb (gshape (ggrid c)) ix -> m <= get (gdata c) ix <= M) ->
  point_interpolation p c order mode cval = Ok v -> m <= v <= M.
Proof. exact (@point_interpolation_bounded_lem). Qed.
Print Assumptions point_interpolation_bounded.

(** The hypotheses are met by a concrete case. *)
Example point_interpolation_bounded_ex : has_domain (ggrid (garray ipc)) /\ on_grid (garray ipc) /\ mode_ok PMNearest (gshape (ggrid (garray ipc))) /\
  (forall ix, inb (gshape (ggrid (garray ipc))) ix -> 0 <= get (gdata (garray ipc)) ix <= 31).
Proof. exact (@point_interpolation_bounded_ex_lem). Qed.

(** C75. Linear interpolation at a point in mode 'wrap' is periodic: moving the point by whole domain lengths along any axes does not change the result. *)
Theorem point_interpolation_wrap_periodic : forall c p ks cval, has_domain (ggrid c) -> on_grid c -> length p = gndim (ggrid c) -> length ks = gndim (ggrid c) ->
  point_interpolation (map (fun i => nth i p 0 + IZR (nth i ks 0%Z) * len (ggrid c) i) (seq 0 (gndim (ggrid c)))) c 1 PMWrap cval = point_interpolation p c 1 PMWrap cval.
Proof. exact (@point_interpolation_wrap_periodic_lem). Qed.
Print Assumptions point_interpolation_wrap_periodic.

(** The hypotheses are met by a concrete case. *)
Example point_interpolation_wrap_periodic_ex : has_domain (ggrid (garray ipc)) /\ on_grid (garray ipc) /\ length [1; 2] = gndim (ggrid (garray ipc)) /\ length [-3; 5]%Z = gndim (ggrid (garray ipc)).
Proof. exact (@point_interpolation_wrap_periodic_ex_lem). Qed.

(** C75. Nearest interpolation (order 0) in mode 'wrap' is not periodic: halves are rounded away from zero, so two points one domain length apart, half way between two nodes, can take the values of different nodes. *)
Theorem point_interpolation_wrap_nearest_refuted : ~ (forall c p ks cval, has_domain (ggrid c) -> on_grid c -> length p = gndim (ggrid c) -> length ks = gndim (ggrid c) ->
  point_interpolation (map (fun i => nth i p 0 + IZR (nth i ks 0%Z) * len (ggrid c) i) (seq 0 (gndim (ggrid c)))) c 0 PMWrap cval = point_interpolation p c 0 PMWrap cval).
Proof. exact (@point_interpolation_wrap_nearest_refuted_lem). Qed.
Print Assumptions point_interpolation_wrap_nearest_refuted.

(** C75. Linear interpolation at a point in mode 'nearest', the default, outside the box spanned by the nodes returns the value at the nearest point of that box. *)
Theorem point_interpolation_clamped : forall c p cval, has_domain (ggrid c) -> on_grid c -> length p = gndim (ggrid c) ->
  point_interpolation p c 1 PMNearest cval = point_interpolation (clamped (ggrid c) (goff c) p) c 1 PMNearest cval.
Proof. exact (@point_interpolation_clamped_lem). Qed.
Print Assumptions point_interpolation_clamped.

(** The hypotheses are met by a concrete case. *)
Example point_interpolation_clamped_ex : has_domain (ggrid (garray ipc)) /\ on_grid (garray ipc) /\ length [17; -5] = gndim (ggrid (garray ipc)) /\
  clamped (ggrid (garray ipc)) (goff (garray ipc)) [17; -5] = [7/2; 1].
Proof. exact (@point_interpolation_clamped_ex_lem). Qed.

(** C75. For periodic fields, interpolation at a point in mode 'wrap' agrees with interpolation to an offset: the field interpolated linearly to any offset holds, in every cell, the value of linear point interpolation at the point at that offset of the cell. *)
Theorem point_interpolation_agrees : forall c o' w ix cval, periodic_field c -> has_domain (ggrid (garray c)) -> length o' = gndim (ggrid (garray c)) ->
  linear_interp c o' = Ok w -> inb (gshape (ggrid (garray c))) ix ->
  point_interpolation (cell_point (ggrid (garray c)) o' ix) (garray c) 1 PMWrap cval = Ok (get (gdata (garray w)) ix).
Proof. exact (@point_interpolation_agrees_lem). Qed.
Print Assumptions point_interpolation_agrees.

(** The hypotheses are met by a concrete case. *)
Example point_interpolation_agrees_ex : periodic_field ipc /\ has_domain (ggrid (garray ipc)) /\ exists w, linear_interp ipc [1%Q; (1 # 4)%Q] = Ok w.
Proof. exact (@point_interpolation_agrees_ex_lem). Qed.

(** C75. Point interpolation refuses interpolation orders above 1, modes that are not documented and points with another number of coordinates than the grid, instead of guessing. *)
Theorem point_interpolation_refuses : forall c p order mode cval, has_domain (ggrid c) -> on_grid c ->
  (length p <> gndim (ggrid c) -> point_interpolation p c order mode cval = Err EType) /\
  (length p = gndim (ggrid c) -> mode = PMOther -> point_interpolation p c order mode cval = Err ENotImpl) /\
  (length p = gndim (ggrid c) -> (0 < gndim (ggrid c))%nat -> (2 <= order)%nat -> point_interpolation p c order mode cval = Err ENotImpl).
Proof. exact (@point_interpolation_refuses_lem). Qed.
Print Assumptions point_interpolation_refuses.

(** The hypotheses are met by a concrete case. *)
Example point_interpolation_refuses_ex : has_domain (ggrid (garray ipc)) /\ on_grid (garray ipc) /\ length [1; 2; 3] <> gndim (ggrid (garray ipc)) /\ length [1; 2] = gndim (ggrid (garray ipc)).
Proof. exact (@point_interpolation_refuses_ex_lem). Qed.
