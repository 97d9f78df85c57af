(** Generated by tools/gen.py from MetricProps.v: property theorems only. *)
From Verif Require Import Prelude NdArr Grids_model Spec FD_model Latent_model.
From Coq Require Import Psatz.
From Verif Require Import MetricProps.
Local Open Scope R_scope.
Set Implicit Arguments.

(** C83. u_x_correlation_metric (and u_t_correlation_metric) with any threshold >= 0, on any positive number of samples and lines of any length: the value is non-negative, and it is 0 exactly when, in every sample, the prediction equals the ground truth wherever the ground truth exceeds the threshold in magnitude, and stays within the threshold wherever the ground truth is below it. *)
Theorem correlation_metric_zero_iff : forall (thr : R) (samples n : nat) (a gt : nat -> nat -> R), 0 <= thr -> (0 < samples)%nat ->
  exists m, u_x_correlation_metric thr samples n a gt = Ok m /\ 0 <= m /\
    (m = 0 <-> forall s i, (s < samples)%nat -> (i < n)%nat -> (thr < Rabs (gt s i) -> a s i = gt s i) /\ (Rabs (gt s i) < thr -> Rabs (a s i) <= thr)).
Proof. exact (@correlation_metric_zero_iff_lem). Qed.
Print Assumptions correlation_metric_zero_iff.

(** The hypotheses are met by a concrete case. *)
Example correlation_metric_zero_iff_ex : 0 <= 1 / 2 /\ (0 < 2)%nat.
Proof. exact (@correlation_metric_zero_iff_ex_lem). Qed.

(** C83. energy_spectrum_metric with any threshold, on spectra with positive values: the value is non-negative, and it is 0 exactly when, in every sample, the spectrum equals the ground truth wherever the ground truth exceeds the threshold, and wherever the ground truth is below it the spectrum is at most the threshold or exactly 1. *)
Theorem energy_spectrum_metric_zero_iff : forall (thr : R) (samples n : nat) (a gt : nat -> nat -> R), (0 < samples)%nat ->
  (forall s i, (s < samples)%nat -> (i < n)%nat -> 0 < a s i /\ 0 < gt s i) ->
  exists m, energy_spectrum_metric thr samples n a gt = Ok m /\ 0 <= m /\
    (m = 0 <-> forall s i, (s < samples)%nat -> (i < n)%nat -> (thr < gt s i -> a s i = gt s i) /\ (gt s i < thr -> a s i <= thr \/ a s i = 1)).
Proof. exact (@energy_spectrum_metric_zero_iff_lem). Qed.
Print Assumptions energy_spectrum_metric_zero_iff.

(** The hypotheses are met by a concrete case. *)
Example energy_spectrum_metric_zero_iff_ex : (0 < 2)%nat /\ (forall s i, (s < 2)%nat -> (i < 3)%nat -> 0 < (fun s i => INR (S s + i)) s i /\ 0 < (fun s i => 1 / 1000) s i).
Proof. exact (@energy_spectrum_metric_zero_iff_ex_lem). Qed.

(** C83. energy_spectrum_metric does not catch every spurious mode (refuted): with its default threshold 0.01 the metric of a spectrum that has energy 1 in a mode where the ground truth has 0.001, a hundred times the threshold, is exactly 0, because the penalty is the magnitude of the logarithm of the energy. *)
Theorem energy_spectrum_metric_catches_modes_refuted : ~ (forall (samples n : nat) (a gt : nat -> nat -> R), (0 < samples)%nat -> (forall s i, (s < samples)%nat -> (i < n)%nat -> 0 < a s i /\ 0 < gt s i) ->
  energy_spectrum_metric (1 / 100) samples n a gt = Ok 0 -> forall s i, (s < samples)%nat -> (i < n)%nat -> gt s i < 1 / 100 -> a s i <= 1 / 100).
Proof. exact (@energy_spectrum_metric_catches_modes_refuted_lem). Qed.
Print Assumptions energy_spectrum_metric_catches_modes_refuted.

(** C83. Averaging over devices: split any batch into any positive number of shards of one positive size; for any metric of single elements, the mean over the devices of the mean over each shard (distributed_reduce of local_reduce) equals the mean over the whole batch (local_reduce). *)
Theorem distributed_mean_is_global_mean : forall (B : Type) (metric : B -> result R) (value : B -> R) (shards : list (list B)) (size : nat),
  shards <> [] -> (0 < size)%nat -> (forall s, In s shards -> length s = size) -> (forall s x, In s shards -> In x s -> metric x = Ok (value x)) ->
  exists m, distributed_reduce (local_reduce metric mean_reduction) mean_reduction shards = Ok m /\ local_reduce metric mean_reduction (concat shards) = Ok m /\
    m = fold_right Rplus 0 (map value (concat shards)) / INR (length shards * size).
Proof. exact (@distributed_mean_is_global_mean_lem). Qed.
Print Assumptions distributed_mean_is_global_mean.

(** The hypotheses are met by a concrete case. *)
Example distributed_mean_is_global_mean_ex : [[1; 2]; [3; 5]; [8; 13]] <> [] /\ (0 < 2)%nat /\ (forall s, In s [[1; 2]; [3; 5]; [8; 13]] -> length s = 2%nat) /\ (forall s x, In s [[1; 2]; [3; 5]; [8; 13]] -> In x s -> (fun x => Ok (x * x)) x = Ok ((fun x => x * x) x)).
Proof. exact (@distributed_mean_is_global_mean_ex_lem). Qed.

(** C83. Averaging over devices with shards of different sizes is not averaging over the batch (refuted): with shards of 1 and 2 elements the two means differ. *)
Theorem distributed_mean_uneven_refuted : ~ (forall (metric : R -> result R) (shards : list (list R)), (forall s, In s shards -> s <> []) ->
  distributed_reduce (local_reduce metric mean_reduction) mean_reduction shards = local_reduce metric mean_reduction (concat shards)).
Proof. exact (@distributed_mean_uneven_refuted_lem). Qed.
Print Assumptions distributed_mean_uneven_refuted.
