(** Generated by tools/gen.py from ArrayUtilsProps.v: property theorems only. *)
From Verif Require Import Prelude NdArr ArrayUtils_model.
From Verif Require Import ArrayUtilsProps.
Local Open Scope Z_scope.
Set Implicit Arguments.

(** C42. Axis arguments: accepted exactly when -ndim <= axis < ndim, in which case a negative axis counts from the last one; any other axis raises ValueError. *)
Theorem normalize_axis_spec : forall axis d,
  (valid_axis axis d -> exists k, normalize_axis axis d = Ok k /\ denotes axis d k) /\
  (~ valid_axis axis d -> normalize_axis axis d = Err EValue).
Proof. exact (@normalize_axis_spec_lem). Qed.
Print Assumptions normalize_axis_spec.

(** The hypotheses are met by a concrete case. *)
Example normalize_axis_spec_ex : valid_axis (-1) 3 /\ denotes (-1) 3 2 /\ ~ valid_axis 3 3 /\ normalize_axis (-1) 3 = Ok 2%nat.
Proof. exact (@normalize_axis_spec_ex_lem). Qed.

(** C42. split_along_axis on any nonempty collection of arrays (equal ranks if expect_same_dims), every valid axis and every integer split index: the first part of each array consists of its entries before the split point along the axis, the second of those from the split point on; negative split indices count from the end and indices beyond the ends are clamped. *)
Theorem split_along_axis_spec : forall (A : Type) (inputs : list (arr A)) split_idx axis same,
  inputs <> [] -> (forall a, In a inputs -> valid_axis axis (ndim a)) -> (same = true -> forall a b, In a inputs -> In b inputs -> ndim a = ndim b) ->
  exists first second, split_along_axis inputs split_idx axis same = Ok (first, second) /\
    Forall2 (fun a p => exists ax, denotes axis (ndim a) ax /\ part_of ax 0 (split_point (nth ax (shp a) 0%nat) split_idx) a p) inputs first /\
    Forall2 (fun a p => exists ax, denotes axis (ndim a) ax /\
       part_of ax (split_point (nth ax (shp a) 0%nat) split_idx) (nth ax (shp a) 0 - split_point (nth ax (shp a) 0) split_idx)%nat a p) inputs second.
Proof. exact (@split_along_axis_spec_lem). Qed.
Print Assumptions split_along_axis_spec.

(** The hypotheses are met by a concrete case. *)
Example split_along_axis_spec_ex : let a := mkarr [2%nat; 5%nat] (fun ix => nth 0 ix 0 * 10 + nth 1 ix 0) in
  (forall x, In x [a] -> valid_axis (-1) (ndim x)) /\ denotes (-1) (ndim a) 1 /\ split_point 5 (-2) = 3%nat /\
  match split_along_axis [a] (-2) (-1) true with Ok ([f], [s]) => get f [1; 2] = 12 /\ get s [1; 0] = 13 /\ shp s = [2%nat; 2%nat] | _ => False end.
Proof. exact (@split_along_axis_spec_ex_lem). Qed.

(** C42. Splitting and concatenating are inverse: for every nonempty collection of arrays, valid axis (positive or negative) and integer split index (in range, negative or beyond the ends), concat_along_axis of the two parts returned by split_along_axis gives back every array, with its shape and all its entries. *)
Theorem concat_split_identity : forall (A : Type) (inputs : list (arr A)) split_idx axis same,
  inputs <> [] -> (forall a, In a inputs -> valid_axis axis (ndim a)) -> (same = true -> forall a b, In a inputs -> In b inputs -> ndim a = ndim b) ->
  exists first second outputs, split_along_axis inputs split_idx axis same = Ok (first, second) /\
    concat_along_axis [first; second] axis = Ok outputs /\ Forall2 aeq outputs inputs.
Proof. exact (@concat_split_identity_lem). Qed.
Print Assumptions concat_split_identity.

(** The hypotheses are met by a concrete case. *)
Example concat_split_identity_ex : let a := mkarr [2%nat; 5%nat] (fun ix => nth 0 ix 0 * 10 + nth 1 ix 0) in
  let b := mkarr [3%nat] (fun ix => nth 0 ix 0) in
  (forall x, In x [a; b] -> valid_axis (-1) (ndim x)) /\ ndim a <> ndim b /\
  match split_along_axis [a; b] 2 (-1) false with Ok (f, s) => match concat_along_axis [f; s] (-1) with Ok [x; y] => get x [1; 3] = 13 /\ get y [2] = 2 | _ => False end | _ => False end.
Proof. exact (@concat_split_identity_ex_lem). Qed.

(** C42. Invalid requests raise ValueError instead of returning data: an axis outside [-ndim, ndim) for one of the arrays (all having at least one axis), or arrays of different ranks (or none at all) when expect_same_dims is set. *)
Theorem split_along_axis_errors : forall (A : Type) (inputs : list (arr A)) split_idx axis same,
  ((exists a, In a inputs /\ (0 < ndim a)%nat /\ ~ valid_axis axis (ndim a)) -> split_along_axis inputs split_idx axis same = Err EValue) /\
  ((inputs = [] \/ exists a b, In a inputs /\ In b inputs /\ ndim a <> ndim b) -> split_along_axis inputs split_idx axis true = Err EValue).
Proof. exact (@split_along_axis_errors_lem). Qed.
Print Assumptions split_along_axis_errors.

(** The hypotheses are met by a concrete case. *)
Example split_along_axis_errors_ex : let a := mkarr [2%nat; 5%nat] (fun _ => 0) in let b := mkarr [3%nat] (fun _ => 1) in
  (exists x, In x [a; b] /\ (0 < ndim x)%nat /\ ~ valid_axis 1 (ndim x)) /\ (exists x y, In x [a; b] /\ In y [a; b] /\ ndim x <> ndim y).
Proof. exact (@split_along_axis_errors_ex_lem). Qed.

(** C42. slice_along_axis with an integer index (negative ones counting from the end) returns the slice at that position with the axis dropped, for every array, axis and position in range. *)
Theorem slice_along_axis_int : forall (A : Type) (inputs : list (arr A)) axis i,
  inputs <> [] -> (forall a, In a inputs -> valid_axis axis (ndim a)) ->
  (forall a ax, In a inputs -> denotes axis (ndim a) ax -> - Z.of_nat (nth ax (shp a) 0%nat) <= i < Z.of_nat (nth ax (shp a) 0%nat)) ->
  exists outputs, slice_along_axis inputs axis (PyInt i) false = Ok outputs /\
    Forall2 (fun a p => exists ax k, denotes axis (ndim a) ax /\ (i = Z.of_nat k \/ i = Z.of_nat k - Z.of_nat (nth ax (shp a) 0%nat)) /\ slice_of ax k a p) inputs outputs.
Proof. exact (@slice_along_axis_int_lem). Qed.
Print Assumptions slice_along_axis_int.

(** The hypotheses are met by a concrete case. *)
Example slice_along_axis_int_ex : let a := mkarr [2%nat; 5%nat] (fun ix => nth 0 ix 0 * 10 + nth 1 ix 0) in
  match slice_along_axis [a] (-1) (PyInt (-2)) false with Ok [p] => shp p = [2%nat] /\ get p [1] = 13 | _ => False end /\ denotes (-1) (ndim a) 1 /\ - 5 <= -2 < 5.
Proof. exact (@slice_along_axis_int_ex_lem). Qed.

(** C42. slice_along_axis with slice(start, None, step): entry i of the result along the axis is entry start + i*step of the array, and the result has exactly as many entries as there are such positions. *)
Theorem slice_along_axis_stride : forall (A : Type) (inputs : list (arr A)) axis start step,
  inputs <> [] -> (forall a, In a inputs -> valid_axis axis (ndim a)) -> 0 <= start -> 0 < step ->
  exists outputs, slice_along_axis inputs axis (PySlice (Some start) None step) false = Ok outputs /\
    Forall2 (fun a p => exists ax, denotes axis (ndim a) ax /\ (forall j, j <> ax -> nth j (shp p) 0%nat = nth j (shp a) 0%nat) /\ length (shp p) = length (shp a) /\
       (forall i, 0 <= i -> (i < Z.of_nat (nth ax (shp p) 0%nat) <-> start + i * step < Z.of_nat (nth ax (shp a) 0%nat))) /\
       forall ix, inb (shp p) ix -> get p ix = get a (upd ax (start + nth ax ix 0 * step) ix)) inputs outputs.
Proof. exact (@slice_along_axis_stride_lem). Qed.
Print Assumptions slice_along_axis_stride.

(** The hypotheses are met by a concrete case. *)
Example slice_along_axis_stride_ex : let a := mkarr [7%nat] (fun ix => nth 0 ix 0) in
  match slice_along_axis [a] 0 (PySlice (Some 2) None 3) false with Ok [p] => shp p = [2%nat] /\ get p [1] = 5 | _ => False end.
Proof. exact (@slice_along_axis_stride_ex_lem). Qed.

(** C42. split_axis on any nonempty collection of arrays whose axis has the same size n > 0 returns exactly n trees; leaf j of tree k is the k-th slice of array j, in order, with the axis kept at size one if keep_dims is set and dropped otherwise. *)
Theorem split_axis_spec : forall (A : Type) (inputs : list (arr A)) axis n (keep_dims : bool), inputs <> [] -> (0 < n)%nat ->
  (forall a, In a inputs -> exists ax, denotes axis (ndim a) ax /\ nth ax (shp a) 0%nat = n) ->
  exists outputs, split_axis inputs axis keep_dims = Ok outputs /\ length outputs = n /\
    forall k tree, nth_error outputs k = Some tree ->
      Forall2 (fun a p => exists ax, denotes axis (ndim a) ax /\ (if keep_dims then part_of ax k 1 a p else slice_of ax k a p)) inputs tree.
Proof. exact (@split_axis_spec_lem). Qed.
Print Assumptions split_axis_spec.

(** The hypotheses are met by a concrete case. *)
Example split_axis_spec_ex : let a := mkarr [2%nat; 3%nat] (fun ix => nth 0 ix 0 * 10 + nth 1 ix 0) in let b := mkarr [3%nat] (fun ix => nth 0 ix 0) in
  (forall x, In x [a; b] -> exists ax, denotes (-1) (ndim x) ax /\ nth ax (shp x) 0%nat = 3%nat) /\
  match split_axis [a; b] (-1) false with Ok [_; [p; q]; _] => shp p = [2%nat] /\ get p [1] = 11 /\ shp q = [] /\ get q [] = 1 | _ => False end.
Proof. exact (@split_axis_spec_ex_lem). Qed.

(** C42. unstack returns the slices of an array along an axis of size n > 0, in order, with the axis dropped. *)
Theorem unstack_spec : forall (A : Type) (a : arr A) axis ax, denotes axis (ndim a) ax -> (0 < nth ax (shp a) 0)%nat ->
  exists l, unstack a axis = Ok l /\ length l = nth ax (shp a) 0%nat /\ forall k p, nth_error l k = Some p -> slice_of ax k a p.
Proof. exact (@unstack_spec_lem). Qed.
Print Assumptions unstack_spec.

(** The hypotheses are met by a concrete case. *)
Example unstack_spec_ex : let a := mkarr [2%nat; 3%nat] (fun ix => nth 0 ix 0 * 10 + nth 1 ix 0) in
  denotes 0 (ndim a) 0 /\ match unstack a 0 with Ok [_; p] => shp p = [3%nat] /\ get p [2] = 12 | _ => False end.
Proof. exact (@unstack_spec_ex_lem). Qed.

(** C42. split_axis refuses collections whose arrays differ in size along the axis (ValueError), and axes that an array does not have (IndexError from shape lookup). *)
Theorem split_axis_errors : forall (A : Type) (inputs : list (arr A)) axis keep_dims,
  ((forall a, In a inputs -> valid_axis axis (ndim a)) ->
   (exists a b ax bx, In a inputs /\ In b inputs /\ denotes axis (ndim a) ax /\ denotes axis (ndim b) bx /\ nth ax (shp a) 0%nat <> nth bx (shp b) 0%nat) -> split_axis inputs axis keep_dims = Err EValue) /\
  ((exists a, In a inputs /\ ~ valid_axis axis (ndim a)) -> split_axis inputs axis keep_dims = Err EIndex).
Proof. exact (@split_axis_errors_lem). Qed.
Print Assumptions split_axis_errors.

(** The hypotheses are met by a concrete case. *)
Example split_axis_errors_ex : let a := mkarr [2%nat; 3%nat] (fun _ => 0) in let b := mkarr [4%nat] (fun _ => 1) in
  (exists x y ax bx, In x [a; b] /\ In y [a; b] /\ denotes (-1) (ndim x) ax /\ denotes (-1) (ndim y) bx /\ nth ax (shp x) 0%nat <> nth bx (shp y) 0%nat) /\ ~ valid_axis 1 (ndim b).
Proof. exact (@split_axis_errors_ex_lem). Qed.

(** C42. Concatenating the slices that split_axis returns with keep_dims gives back the arrays, with their shapes and all their entries, for every number and size of slices. *)
Theorem concat_split_axis_identity : forall (A : Type) (inputs : list (arr A)) axis n, inputs <> [] -> (0 < n)%nat ->
  (forall a, In a inputs -> exists ax, denotes axis (ndim a) ax /\ nth ax (shp a) 0%nat = n) ->
  exists trees outputs, split_axis inputs axis true = Ok trees /\ concat_along_axis trees axis = Ok outputs /\ Forall2 aeq outputs inputs.
Proof. exact (@concat_split_axis_identity_lem). Qed.
Print Assumptions concat_split_axis_identity.

(** The hypotheses are met by a concrete case. *)
Example concat_split_axis_identity_ex : let a := mkarr [2%nat; 3%nat] (fun ix => nth 0 ix 0 * 10 + nth 1 ix 0) in
  denotes 1 (ndim a) 1 /\ match split_axis [a] 1 true with Ok t => match concat_along_axis t 1 with Ok [x] => shp x = [2%nat; 3%nat] /\ get x [1; 2] = 12 | _ => False end | _ => False end.
Proof. exact (@concat_split_axis_identity_ex_lem). Qed.
