(** * Quantiles: jax_cfd/data/evaluation.py and jax_cfd/data/visualization.py *)
From Coq Require Import Sorting.
From Verif Require Import Prelude NdArr Grids_model ArrayUtils_model Equations_model.
Set Implicit Arguments.

Fixpoint rinsert (x : R) (l : list R) : list R :=
  match l with [] => [x] | y :: l' => if Rle_dec x y then x :: l else y :: rinsert x l' end.
Definition rsort (l : list R) : list R := fold_right rinsert [] l.
(** numpy.quantile and xarray's quantile with their default method "linear": the sorted values, interpolated at the position
    q (n - 1).  No values, or q outside [0, 1], are refused (numpy returns NaN for no values). *)
Definition np_quantile (values : list R) (q : R) : result R :=
  if (length values =? 0)%nat then Err EValue
  else if Rlt_dec q 0 then Err EValue
  else if Rlt_dec 1 q then Err EValue
  else
    let s := rsort values in
    let pos := (q * INR (length values - 1))%R in
    let j := Int_part pos in
    let lo := nth (Z.to_nat j) s 0%R in
    let hi := nth (Nat.min (Z.to_nat j + 1) (length values - 1)) s 0%R in
    Ok (lo + (pos - IZR j) * (hi - lo))%R.
(** All values of an array *)
Definition array_values (a : arr R) : list R := map (get a) (all_indices (shp a)).
(** evaluation.py:86-91 [approximate_quantiles] for one array without missing values, [time_axis] being the place of its dimension "time";
    [quantile_thresholds] is a list of numbers. *)
Definition approximate_quantiles (a : arr R) (time_axis : nat) (quantile_thresholds : list R) : result (list R) :=
  let* first := index_axis a time_axis (PyInt 0) in
  mapM (np_quantile (array_values first)) quantile_thresholds.
(** visualization.py:28-47 [quantile_normalize_fn]: the bounds vmin and vmax of the colour scale *)
Definition quantile_normalize_fn (image_data : arr R) (quantile : R) : result (R * R) :=
  let* max_to_include := np_quantile (array_values (amap Rabs image_data)) quantile in
  Ok ((- max_to_include)%R, max_to_include).
