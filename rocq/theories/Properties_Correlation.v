(** Generated by tools/gen.py from CorrelationProps.v: property theorems only. *)
From Coq Require Import String.
From Verif Require Import Prelude NdArr Grids_model Spec Boundaries_model PRep ArrayUtilsProps LinAlg Cplx Spectral_model Xarray_model SpecData XarrayProps Correlation_model.
From Verif Require Import CorrelationProps.
Local Open Scope Z_scope.
Local Open Scope list_scope.
Set Implicit Arguments.

(** C94. velocity_spatial_correlation of a dataset with one, two or three dimensions and a velocity component for each, along any of its dimensions, with at least two points: one result per component, named u_x_correlation and so on; the axis is replaced by a last axis of half its size; the entry for displacement number d is the mean over the periodic line of the products of two values d apart. *)
Theorem velocity_correlation_values : forall (ds : dataset) (axis : nat) (c : coordinate),
  (length (ds_coords ds) <= 3)%nat -> length (ds_velocity ds) = length (ds_coords ds) -> Forall (fun a => shp a = map fst (ds_coords ds)) (ds_velocity ds) ->
  nth_error (ds_coords ds) axis = Some c -> (2 <= fst c)%nat ->
  exists r, velocity_spatial_correlation ds axis = Ok r /\ length r = length (ds_coords ds) /\
    forall k a, nth_error (ds_velocity ds) k = Some a -> exists name cs e, nth_error r k = Some (name, (cs, e)) /\
      name = (nth k ["u"; "v"; "w"] "" ++ "_" ++ nth axis ["x"; "y"; "z"] "" ++ "_correlation")%string /\
      shp e = firstn axis (shp a) ++ skipn (S axis) (shp a) ++ [(fst c / 2)%nat] /\
      forall rest d, length rest = (length (shp a) - 1)%nat -> 0 <= d < Z.of_nat (fst c / 2) -> get e (rest ++ [d]) = line_correlation a axis (fst c) rest d.
Proof. exact (@velocity_correlation_values_lem). Qed.
Print Assumptions velocity_correlation_values.

(** The hypotheses are met by a concrete case. *)
Example velocity_correlation_values_ex : exists r name cs e, velocity_spatial_correlation corr_ds 0 = Ok r /\ length r = 2%nat /\ nth_error r 0 = Some (name, (cs, e)) /\
  name = "u_x_correlation"%string /\ shp e = [2; 2]%nat /\ get e [1; 1] = 2%R.
Proof. exact (@velocity_correlation_values_ex_lem). Qed.

(** C94. Moving a periodic flow along the axis by any number of points changes no entry of the correlations along that axis. *)
Theorem velocity_correlation_moved : forall (cs : list coordinate) (v : list (arr R)) (axis : nat) (c : coordinate) (s : Z),
  (length cs <= 3)%nat -> length v = length cs -> Forall (fun a => shp a = map fst cs) v -> nth_error cs axis = Some c -> (2 <= fst c)%nat ->
  exists r r', velocity_spatial_correlation (mkds cs v) axis = Ok r /\ velocity_spatial_correlation (mkds cs (map (xr_roll axis s) v)) axis = Ok r' /\ length r' = length r /\
    forall k name cs1 e, nth_error r k = Some (name, (cs1, e)) -> exists cs1' e', nth_error r' k = Some (name, (cs1', e')) /\ shp e' = shp e /\
      forall rest d, length rest = (length cs - 1)%nat -> 0 <= d < Z.of_nat (fst c / 2) -> get e' (rest ++ [d]) = get e (rest ++ [d]).
Proof. exact (@velocity_correlation_moved_lem). Qed.
Print Assumptions velocity_correlation_moved.

(** The hypotheses are met by a concrete case. *)
Example velocity_correlation_moved_ex : length (ds_velocity corr_ds) = length (ds_coords corr_ds) /\ Forall (fun a => shp a = map fst (ds_coords corr_ds)) (ds_velocity corr_ds) /\
  nth_error (ds_coords corr_ds) 0 = Some (4%nat, fun i => IZR i) /\ get (xr_roll 0 1 (mkarr [4%nat; 2%nat] (fun ix => IZR (nth 0 ix 0)))) [0; 0] = 3%R.
Proof. exact (@velocity_correlation_moved_ex_lem). Qed.

(** C94. At displacement 0 the correlation is the mean square over the line, which no other displacement exceeds in magnitude. *)
Theorem velocity_correlation_peak : forall (ds : dataset) (axis : nat) (c : coordinate),
  (length (ds_coords ds) <= 3)%nat -> length (ds_velocity ds) = length (ds_coords ds) -> Forall (fun a => shp a = map fst (ds_coords ds)) (ds_velocity ds) ->
  nth_error (ds_coords ds) axis = Some c -> (2 <= fst c)%nat ->
  exists r, velocity_spatial_correlation ds axis = Ok r /\ length r = length (ds_coords ds) /\
    forall k a, nth_error (ds_velocity ds) k = Some a -> exists name cs e, nth_error r k = Some (name, (cs, e)) /\
      forall rest, length rest = (length (shp a) - 1)%nat ->
        get e (rest ++ [0]) = (rsum (fst c) (fun i => get a (firstn axis rest ++ i :: skipn axis rest) ^ 2) / INR (fst c))%R /\
        forall d, 0 <= d < Z.of_nat (fst c / 2) -> (Rabs (get e (rest ++ [d])) <= get e (rest ++ [0%Z]))%R.
Proof. exact (@velocity_correlation_peak_lem). Qed.
Print Assumptions velocity_correlation_peak.

(** The hypotheses are met by a concrete case. *)
Example velocity_correlation_peak_ex : exists r name cs e, velocity_spatial_correlation corr_ds 0 = Ok r /\ nth_error r 0 = Some (name, (cs, e)) /\ get e [1; 0] = (14 / 4)%R /\ (Rabs (get e [1%Z; 1%Z]) <= 14 / 4)%R.
Proof. exact (@velocity_correlation_peak_ex_lem). Qed.
