(** Generated by tools/gen.py from Interp1dProps.v: property theorems only. *)
From Verif Require Import Prelude NdArr ArrayUtils_model ArrayUtilsProps FourierProofs Interp1d_model.
From Coq Require Import Permutation Sorted FinFun.
From Verif Require Import Interp1dProps.
Local Open Scope Z_scope.
Set Implicit Arguments.

(** C44. interp1d(x, y, axis, fill_value, assume_sorted)(x_new) for every rank, every axis (also negative), every set of distinct nodes (increasing if assume_sorted) and every query array: the result has shape y.shape[:axis] + x_new.shape + y.shape[axis+1:], and every entry is the line through the two neighbouring points if the query lies between them; below the first or beyond the last node it is the line through the two outermost points, the outermost value, or the fill value, according to fill_value. *)
Theorem interp1d_interpolates : forall (x y x_new : arr R) (axis : Z) (fv : fill) (assume_sorted : bool) (n d : nat),
  shp x = [n] -> (2 <= n)%nat -> denotes axis (ndim y) d -> nth d (shp y) 0%nat = n -> fill_ok fv ->
  (if assume_sorted then increasing n (fun i => get x [i]) else distinct n (fun i => get x [i])) ->
  exists r, interp1d x y axis fv assume_sorted x_new = Ok r /\ shp r = firstn d (shp y) ++ shp x_new ++ skipn (S d) (shp y) /\
    forall pre jx post, length pre = d -> length jx = ndim x_new ->
      interpolates n (fun i => get x [i]) (fun i => get y (pre ++ i :: post)) fv (get x_new jx) (get r (pre ++ jx ++ post)).
Proof. exact (@interp1d_interpolates_lem). Qed.
Print Assumptions interp1d_interpolates.

(** C44. Under the same conditions: at a query equal to a node the result is exactly the value given for that node; at a query between the smallest and the largest node the result is a number (never the fill value) that lies between the values at the two neighbouring nodes. *)
Theorem interp1d_nodes_and_range : forall (x y x_new : arr R) (axis : Z) (fv : fill) (assume_sorted : bool) (n d : nat) (r : arr (option R)),
  shp x = [n] -> (2 <= n)%nat -> denotes axis (ndim y) d -> nth d (shp y) 0%nat = n -> fill_ok fv ->
  (if assume_sorted then increasing n (fun i => get x [i]) else distinct n (fun i => get x [i])) ->
  interp1d x y axis fv assume_sorted x_new = Ok r ->
  forall pre jx post, length pre = d -> length jx = ndim x_new ->
    (forall k, 0 <= k < Z.of_nat n -> get x_new jx = get x [k] -> get r (pre ++ jx ++ post) = Some (get y (pre ++ k :: post))) /\
    (forall lo hi, 0 <= lo < Z.of_nat n -> 0 <= hi < Z.of_nat n -> (get x [lo] <= get x_new jx <= get x [hi])%R ->
       exists a b w, neighbours n (fun i => get x [i]) a b /\ (get x [a] <= get x_new jx <= get x [b])%R /\ get r (pre ++ jx ++ post) = Some w /\
         (Rmin (get y (pre ++ a :: post)) (get y (pre ++ b :: post)) <= w <= Rmax (get y (pre ++ a :: post)) (get y (pre ++ b :: post)))%R).
Proof. exact (@interp1d_nodes_and_range_lem). Qed.
Print Assumptions interp1d_nodes_and_range.

(** C44. With assume_sorted, interp1d succeeds exactly when fill_value is one of the two documented strings or a scalar, x has one axis with at least two entries, axis is a valid axis of y, and y has as many entries along it as x; otherwise it raises. *)
Theorem interp1d_sorted_accepts : forall (x y x_new : arr R) (axis : Z) (fv : fill),
  is_ok (interp1d x y axis fv true x_new) <->
  fill_ok fv /\ exists n d, shp x = [n] /\ (2 <= n)%nat /\ denotes axis (ndim y) d /\ nth d (shp y) 0%nat = n.
Proof. exact (@interp1d_sorted_accepts_lem). Qed.
Print Assumptions interp1d_sorted_accepts.

(** C44. The documented check that x and y have equal lengths is NOT made when assume_sorted is False: reordering y with the sorting permutation of x gives it the length of x, so nodes and values of different lengths are accepted. *)
Theorem interp1d_unsorted_length_check_refuted :
  exists (x y x_new : arr R) (fv : fill), shp x = [3%nat] /\ shp y = [5%nat] /\ interp1d x y (-1) fv true x_new = Err EValue /\
    is_ok (interp1d x y (-1) fv false x_new).
Proof. exact (@interp1d_unsorted_length_check_refuted_lem). Qed.
Print Assumptions interp1d_unsorted_length_check_refuted.

(** The hypotheses are met by a concrete case. *)
Example interp1d_interpolates_ex : exists r, interp1d ex_x ex_y (-1) FConstant false (mkarr [1%nat] (fun _ => 2%R)) = Ok r /\ shp r = [2%nat; 1%nat] /\ get r [1; 0] = Some 31%R.
Proof. exact (@interp1d_interpolates_ex_lem). Qed.

(** The hypotheses are met by a concrete case. *)
Example interp1d_nodes_and_range_ex : exists r, interp1d ex_x ex_y (-1) FExtrapolate false (mkarr [1%nat] (fun _ => 3%R)) = Ok r /\ get r [1; 0] = Some 51%R.
Proof. exact (@interp1d_nodes_and_range_ex_lem). Qed.

(** The hypotheses are met by a concrete case. *)
Example interp1d_sorted_accepts_ex : is_ok (interp1d ex_x ex_y 1 (FScalar None) true ex_x) /\ ~ is_ok (interp1d ex_x ex_y 0 (FScalar None) true ex_x) /\ ~ is_ok (interp1d ex_x ex_y 1 FOtherString true ex_x).
Proof. exact (@interp1d_sorted_accepts_ex_lem). Qed.
