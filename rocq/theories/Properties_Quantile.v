(** Generated by tools/gen.py from QuantileProps.v: property theorems only. *)
From Coq Require Import Sorting.
From Verif Require Import Prelude NdArr Grids_model ArrayUtils_model Equations_model SpecQuantile Quantile_model.
From Verif Require Import QuantileProps.
Local Open Scope Z_scope.
Set Implicit Arguments.

(** C99. A quantile q in [0, 1] of any nonempty list of values is defined and divides them as it should: more than q (N - 1) of the N values are at most the quantile, more than (1 - q) (N - 1) are at least the quantile, and it lies between two of the values. *)
Theorem quantile_divides : forall (values : list R) (q : R), values <> [] -> (0 <= q <= 1)%R -> exists Q, np_quantile values q = Ok Q /\
  (q * INR (length values - 1) < INR (how_many (fun x => x <= Q)%R (fun x => Rle_dec x Q) values))%R /\
  ((1 - q) * INR (length values - 1) < INR (how_many (fun x => Q <= x)%R (fun x => Rle_dec Q x) values))%R /\
  exists lo hi, In lo values /\ In hi values /\ (lo <= Q <= hi)%R.
Proof. exact (@quantile_divides_lem). Qed.
Print Assumptions quantile_divides.

(** The hypotheses are met by a concrete case. *)
Example quantile_divides_ex : exists Q, np_quantile [5; 1; 9; 4; 7]%R (1 / 2)%R = Ok Q /\ (2 < INR (how_many (fun x => x <= Q)%R (fun x => Rle_dec x Q) [5; 1; 9; 4; 7]%R))%R.
Proof. exact (@quantile_divides_ex_lem). Qed.

(** C99. approximate_quantiles over an array of any shape with a nonempty time axis: the k-th result is the quantile for the k-th threshold of the values at time 0, more than q (N - 1) of which are at most and more than (1 - q) (N - 1) at least the result. *)
Theorem approximate_quantiles_first_time : forall (a : arr R) (time_axis : nat) (thresholds : list R), (0 < nth time_axis (shp a) 0)%nat ->
  let values := map (fun ix => get a (insert_at time_axis 0 ix)) (all_indices (remove_at time_axis (shp a))) in
  values <> [] -> Forall (fun q => 0 <= q <= 1)%R thresholds ->
  exists Qs, approximate_quantiles a time_axis thresholds = Ok Qs /\ length Qs = length thresholds /\
    forall k, (k < length thresholds)%nat -> let q := nth k thresholds 0%R in let Q := nth k Qs 0%R in
      (q * INR (length values - 1) < INR (how_many (fun x => x <= Q)%R (fun x => Rle_dec x Q) values))%R /\
      ((1 - q) * INR (length values - 1) < INR (how_many (fun x => Q <= x)%R (fun x => Rle_dec Q x) values))%R.
Proof. exact (@approximate_quantiles_first_time_lem). Qed.
Print Assumptions approximate_quantiles_first_time.

(** The hypotheses are met by a concrete case. *)
Example approximate_quantiles_first_time_ex : let a := mkarr [3; 4]%nat (fun ix => IZR (nth 0 ix 0 + 2 * nth 1 ix 0)) in
  (0 < nth 1 (shp a) 0)%nat /\ map (fun ix => get a (insert_at 1 0 ix)) (all_indices (remove_at 1 (shp a))) <> [] /\ Forall (fun q => 0 <= q <= 1)%R [(1 / 4)%R; (1 / 2)%R].
Proof. exact (@approximate_quantiles_first_time_ex_lem). Qed.

(** C99. quantile_normalize_fn for every image with pixels and every quantile q in [0, 1]: the colour scale is symmetric about 0, from -M to M with M >= 0, and more than q (N - 1) of the N pixels lie on it. *)
Theorem colour_scale_covers : forall (image : arr R) (q : R), array_values image <> [] -> (0 <= q <= 1)%R ->
  exists M, quantile_normalize_fn image q = Ok ((- M)%R, M) /\ (0 <= M)%R /\
    (q * INR (length (array_values image) - 1) < INR (how_many (fun x => - M <= x <= M)%R (between_dec M) (array_values image)))%R.
Proof. exact (@colour_scale_covers_lem). Qed.
Print Assumptions colour_scale_covers.

(** The hypotheses are met by a concrete case. *)
Example colour_scale_covers_ex : array_values (mkarr [3; 4]%nat (fun ix => IZR (nth 0 ix 0 - nth 1 ix 0))) <> [] /\ (0 <= 999 / 1000 <= 1)%R.
Proof. exact (@colour_scale_covers_ex_lem). Qed.
