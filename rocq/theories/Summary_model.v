(** * Model of the summaries of jax_cfd/data/evaluation.py *)
From Verif Require Import Prelude NdArr Grids_model ArrayUtils_model Spectral_model Skill_model.
Set Implicit Arguments.

(** Dimension names: sample, time, the k-th of [xr_utils.XR_SPATIAL_DIMS] (x, y, z), others (such as kx). *)
Inductive xdim := DSample | DTime | DSpace (k : nat) | DOther (k : nat).
Definition xdim_eqb (a b : xdim) : bool :=
  match a, b with
  | DSample, DSample | DTime, DTime => true
  | DSpace i, DSpace j | DOther i, DOther j => (i =? j)%nat
  | _, _ => false end.
Fixpoint position (name : nat) (names : list nat) : option nat :=
  match names with [] => None | x :: l => if (x =? name)%nat then Some 0%nat else option_map S (position name l) end.
(** [array.sel(model=name)] for an array whose first dimension is model (in xarray the order of dimensions does not
    matter) with the labels [models], each occurring once; a missing label raises KeyError. *)
Definition sel_model (models : list nat) (a : arr R) (name : nat) : result (arr R) :=
  match position name models with
  | Some k => Ok (mkarr (tl (shp a)) (fun ix => get a (Z.of_nat k :: ix)))
  | None => Err EIndex end.
(** data/evaluation.py:28-47 [absolute_error]; the name of the result is not modelled *)
Definition absolute_error (models : list nat) (a : arr R) (eval_model target_model : nat) : result (arr R) :=
  let* p := sel_model models a eval_model in
  let* t := sel_model models a target_model in
  let* d := ew Rminus p t in Ok (amap Rabs d).
(** data/evaluation.py:94-103 [below_error_threshold] with a scalar threshold; true is 1 and false 0, as [mean] takes them *)
Definition below_error_threshold (models : list nat) (a : arr R) (threshold : R) (eval_model target_model : nat) : result (arr R) :=
  let* p := sel_model models a eval_model in
  let* t := sel_model models a target_model in
  let* d := ew Rminus p t in Ok (amap (fun x => if Rle_dec (Rabs x) threshold then 1 else 0)%R d).
(** data/evaluation.py:106-135 [average] of a real array with dimensions [dims]; averaged dimensions are kept with size
    one; the mean of no values is NaN ([EZeroDiv]). *)
Definition averaged_dims (ndim : nat) (non_spatial_dims dims : list xdim) : list bool :=
  map (fun d => existsb (xdim_eqb d) (non_spatial_dims ++ map DSpace (seq 0 (Nat.min ndim 3)))) dims.
Definition average (dims : list xdim) (a : arr R) (ndim : nat) (non_spatial_dims : list xdim) : result (arr R) :=
  let mask := averaged_dims ndim non_spatial_dims dims in
  let s := kept mask (shp a) in
  if (asize (shp a) =? 0)%nat then Err EZeroDiv
  else Ok (mkarr s (fun ix => msum mask (shp a) (get a) ix / (INR (asize (shp a)) / INR (asize s)))%R).
(** The summaries of data/evaluation.py:227-338 [compute_summary_dataset] of one observable over [ndim] dimensions:
    the mean of the evaluated model, the mean error, and the fraction of errors below a quantile [threshold]. *)
Definition mean_summary models dims a ndim e := let* p := sel_model models a e in average dims p ndim [DSample].
Definition error_summary models dims a ndim e t := let* d := absolute_error models a e t in average dims d ndim [DSample].
Definition threshold_summary models dims a ndim threshold e t := let* d := below_error_threshold models a threshold e t in average dims d ndim [DSample].
