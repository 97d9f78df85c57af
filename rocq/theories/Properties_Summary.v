(** Generated by tools/gen.py from SummaryProps.v: property theorems only. *)
From Verif Require Import Prelude NdArr Grids_model PRep ArrayUtils_model Spectral_model Skill_model SpecSkill SkillProps SpectralProps Summary_model SpecSummary.
From Verif Require Import SummaryProps.
Local Open Scope R_scope.
Set Implicit Arguments.

(** C89. [average] of an array that is not empty keeps every dimension, gives the averaged ones size one, and holds the mean over the cells that agree on the others; of an empty array it is NaN. *)
Theorem average_value : forall dims a ndim non_spatial_dims, length dims = length (shp a) ->
  (asize (shp a) = 0%nat -> average dims a ndim non_spatial_dims = Err EZeroDiv) /\
  (asize (shp a) <> 0%nat -> exists r, average dims a ndim non_spatial_dims = Ok r /\ length (shp r) = length (shp a) /\
     (forall i, (i < length dims)%nat -> nth i (shp r) 0%nat = if existsb (xdim_eqb (nth i dims DTime)) (non_spatial_dims ++ map DSpace (seq 0 (Nat.min ndim 3))) then 1%nat else nth i (shp a) 0%nat) /\
     forall ix, inb (shp r) ix -> get r ix = group_mean (map (fun d => existsb (xdim_eqb d) (non_spatial_dims ++ map DSpace (seq 0 (Nat.min ndim 3)))) dims) (shp a) (get a) ix).
Proof. exact (@average_value_lem). Qed.
Print Assumptions average_value.

(** C89. The three summaries of a model that is present have the same cells and are the mean prediction, the mean absolute error and the fraction of the errors that are at most the threshold. *)
Theorem summary_values : forall models dims s a ndim q k l e t, predictions models dims s a -> nth_error models k = Some e -> nth_error models l = Some t ->
  exists m r f, mean_summary models dims a ndim e = Ok m /\ error_summary models dims a ndim e t = Ok r /\ threshold_summary models dims a ndim q e t = Ok f /\
    shp m = shp r /\ shp f = shp r /\ (forall ix, inb (shp r) ix <-> summary_cell ndim dims s ix) /\
    forall ix, inb (shp r) ix -> get m ix = group_mean (map (summarised ndim) dims) s (of_model a k) ix /\
      get r ix = group_mean (map (summarised ndim) dims) s (fun jx => Rabs (of_model a k jx - of_model a l jx)) ix /\
      get f ix = group_fraction (map (summarised ndim) dims) s (fun jx => if Rle_dec (Rabs (of_model a k jx - of_model a l jx)) q then true else false) ix.
Proof. exact (@summary_values_lem). Qed.
Print Assumptions summary_values.

(** C89. A model that is absent raises KeyError in every summary. *)
Theorem summary_missing : forall models dims a ndim q e t, ~ In e models ->
  mean_summary models dims a ndim e = Err EIndex /\ error_summary models dims a ndim e t = Err EIndex /\ threshold_summary models dims a ndim q e t = Err EIndex /\
  (forall e', In e' models -> error_summary models dims a ndim e' e = Err EIndex /\ threshold_summary models dims a ndim q e' e = Err EIndex).
Proof. exact (@summary_missing_lem). Qed.
Print Assumptions summary_missing.

(** C89. The mean error is nonnegative, does not depend on which of the two models is the reference, and vanishes at a cell exactly when the two predictions are equal throughout its group. *)
Theorem error_metric : forall models dims s a ndim k l e t r, predictions models dims s a -> nth_error models k = Some e -> nth_error models l = Some t -> error_summary models dims a ndim e t = Ok r ->
  forall ix, summary_cell ndim dims s ix -> 0 <= get r ix /\
    (forall r', error_summary models dims a ndim t e = Ok r' -> get r' ix = get r ix) /\
    (get r ix = 0 <-> forall jx, inb s jx -> same_group (map (summarised ndim) dims) ix jx = true -> of_model a k jx = of_model a l jx).
Proof. exact (@error_metric_lem). Qed.
Print Assumptions error_metric.

(** C89. The mean error between two models is at most the sum of their mean errors against a third one. *)
Theorem error_triangle : forall models dims s a ndim k l h e t u r1 r2 r3, predictions models dims s a -> nth_error models k = Some e -> nth_error models l = Some t -> nth_error models h = Some u ->
  error_summary models dims a ndim e u = Ok r1 -> error_summary models dims a ndim e t = Ok r2 -> error_summary models dims a ndim t u = Ok r3 ->
  forall ix, summary_cell ndim dims s ix -> get r1 ix <= get r2 ix + get r3 ix.
Proof. exact (@error_triangle_lem). Qed.
Print Assumptions error_triangle.

(** C89. The mean predictions of two models differ by at most their mean error. *)
Theorem error_bounds_means : forall models dims s a ndim k l e t m m' r, predictions models dims s a -> nth_error models k = Some e -> nth_error models l = Some t ->
  mean_summary models dims a ndim e = Ok m -> mean_summary models dims a ndim t = Ok m' -> error_summary models dims a ndim e t = Ok r ->
  forall ix, summary_cell ndim dims s ix -> Rabs (get m ix - get m' ix) <= get r ix.
Proof. exact (@error_bounds_means_lem). Qed.
Print Assumptions error_bounds_means.

(** C89. The fraction below a threshold lies between zero and one, grows with the threshold, is one exactly when every error of the group is at most the threshold, and the threshold times the remaining fraction is at most the mean error. *)
Theorem threshold_fraction : forall models dims s a ndim q k l e t f, predictions models dims s a -> nth_error models k = Some e -> nth_error models l = Some t -> threshold_summary models dims a ndim q e t = Ok f ->
  forall ix, summary_cell ndim dims s ix -> 0 <= get f ix <= 1 /\
    (forall q' f', q <= q' -> threshold_summary models dims a ndim q' e t = Ok f' -> get f ix <= get f' ix) /\
    (get f ix = 1 <-> forall jx, inb s jx -> same_group (map (summarised ndim) dims) ix jx = true -> Rabs (of_model a k jx - of_model a l jx) <= q) /\
    (forall r, 0 <= q -> error_summary models dims a ndim e t = Ok r -> q * (1 - get f ix) <= get r ix).
Proof. exact (@threshold_fraction_lem). Qed.
Print Assumptions threshold_fraction.

(** The hypotheses are met by a concrete case. *)
Example average_value_ex : exists r, average [DSample; DTime; DSpace 0] (mkarr [2; 2; 2]%nat (get preds)) 1 [DSample] = Ok r /\ shp r = [1; 2; 1]%nat.
Proof. exact (@average_value_ex_lem). Qed.

(** The hypotheses are met by a concrete case. *)
Example summary_values_ex : predictions [7; 9]%nat [DSample; DSpace 0] [2; 2]%nat preds /\ exists r, error_summary [7; 9]%nat [DSample; DSpace 0] preds 1 7%nat 9%nat = Ok r /\ get r [0; 0]%Z = 1 / 2.
Proof. exact (@summary_values_ex_lem). Qed.

(** The hypotheses are met by a concrete case. *)
Example summary_missing_ex : ~ In 8%nat [7; 9]%nat /\ In 9%nat [7; 9]%nat.
Proof. exact (@summary_missing_ex_lem). Qed.

(** The hypotheses are met by a concrete case. *)
Example error_metric_ex : exists r, error_summary [7; 9]%nat [DSample; DSpace 0] preds 1 7%nat 9%nat = Ok r /\ summary_cell 1 [DSample; DSpace 0] [2; 2]%nat [0; 0]%Z /\ get r [0; 0]%Z <> 0.
Proof. exact (@error_metric_ex_lem). Qed.

(** The hypotheses are met by a concrete case. *)
Example error_triangle_ex : exists r1 r2, error_summary [7; 9]%nat [DSample; DSpace 0] preds 1 7%nat 9%nat = Ok r1 /\ error_summary [7; 9]%nat [DSample; DSpace 0] preds 1 7%nat 7%nat = Ok r2 /\ get r1 [0; 0]%Z <> 0.
Proof. exact (@error_triangle_ex_lem). Qed.

(** The hypotheses are met by a concrete case. *)
Example error_bounds_means_ex : exists m m' r, mean_summary [7; 9]%nat [DSample; DSpace 0] preds 1 7%nat = Ok m /\ mean_summary [7; 9]%nat [DSample; DSpace 0] preds 1 9%nat = Ok m' /\ error_summary [7; 9]%nat [DSample; DSpace 0] preds 1 7%nat 9%nat = Ok r /\ get r [0; 0]%Z <> 0.
Proof. exact (@error_bounds_means_ex_lem). Qed.

(** The hypotheses are met by a concrete case. *)
Example threshold_fraction_ex : exists f, threshold_summary [7; 9]%nat [DSample; DSpace 0] preds 1 (1 / 2) 7%nat 9%nat = Ok f /\ get f [0; 0]%Z = 1 / 2.
Proof. exact (@threshold_fraction_ex_lem). Qed.
