(** Generated by tools/gen.py from SkillProps.v: property theorems only. *)
From Verif Require Import Prelude NdArr Grids_model PRep ArrayUtils_model Equations_model EquationsMoreProps InitProofs Spectral_model ArrayUtilsProps Skill_model SpecSkill.
From Verif Require Import SkillProps.
Local Open Scope Z_scope.
Set Implicit Arguments.

(** C61. state_correlation of two arrays of equal shape (any choice of state, averaged and kept dimensions, no empty dimension) always exists and lies in [-1, 1] everywhere, even where a state vanishes. *)
Theorem state_correlation_bounds : forall dims (p t : arr R), shp t = shp p -> length dims = length (shp p) -> allpos (shp p) ->
  exists r, state_correlation dims p t = Ok r /\ forall ix, inb (shp r) ix -> (-1 <= get r ix <= 1)%R.
Proof. exact (@state_correlation_bounds_lem). Qed.
Print Assumptions state_correlation_bounds.

(** The hypotheses are met by a concrete case. *)
Example state_correlation_bounds_ex : let p := mkarr [2%nat; 3%nat] (fun ix => IZR (nth 0 ix 0 * 3 + nth 1 ix 0)%Z) in let t := afull [2%nat; 3%nat] 1%R in
  shp t = shp p /\ length [AveragedDim; StateDim] = length (shp p) /\ allpos (shp p).
Proof. exact (@state_correlation_bounds_ex_lem). Qed.

(** C61. If every predicted state is a positive multiple of the corresponding target state (a different multiple for each sample and time) and no target state vanishes, state_correlation is exactly 1 everywhere. *)
Theorem state_correlation_perfect : forall dims (p t : arr R) (c : list Z -> R), shp t = shp p -> length dims = length (shp p) -> allpos (shp p) ->
  constant_along (map is_state dims) c -> (forall ix, inb (shp p) ix -> (0 < c ix)%R /\ get p ix = (c ix * get t ix)%R) ->
  (forall ix, inb (shp p) ix -> exists jx, inb (shp p) jx /\ agree (map is_state dims) ix jx /\ get t jx <> 0%R) ->
  exists r, state_correlation dims p t = Ok r /\ forall ix, inb (shp r) ix -> get r ix = 1%R.
Proof. exact (@state_correlation_perfect_lem). Qed.
Print Assumptions state_correlation_perfect.

(** The hypotheses are met by a concrete case. *)
Example state_correlation_perfect_ex : let t := afull [2%nat; 3%nat] 1%R in let c := fun ix => IZR (1 + Z.abs (nth 0 ix 0)) in
  let p := mkarr [2%nat; 3%nat] c in let dims := [AveragedDim; StateDim] in
  constant_along (map is_state dims) c /\ (forall ix, inb (shp p) ix -> (0 < c ix)%R /\ get p ix = (c ix * get t ix)%R) /\
  (forall ix, inb (shp p) ix -> exists jx, inb (shp p) jx /\ agree (map is_state dims) ix jx /\ get t jx <> 0%R).
Proof. exact (@state_correlation_perfect_ex_lem). Qed.

(** C61. Whenever correlation_single_step returns a number it lies in [-1, 1]. *)
Theorem correlation_single_step_bounds : forall trajectory target n time_axis batch_axis r, correlation_single_step trajectory target n time_axis batch_axis = Ok r -> (-1 <= r <= 1)%R.
Proof. exact (@correlation_single_step_bounds_lem). Qed.
Print Assumptions correlation_single_step_bounds.

(** C61. A prediction that is one positive multiple of the target everywhere has correlation_single_step exactly 1, whenever it returns a number (some entry in the compared slice). *)
Theorem correlation_of_multiple : forall target c n time_axis batch_axis r, (0 < c)%R ->
  (forall l a, slice_along_axis target (Z.of_nat time_axis) (PyInt n) true = Ok l -> In a l -> allpos (shp a)) ->
  correlation_single_step (map (amap (fun x => c * x)%R) target) target n time_axis batch_axis = Ok r -> r = 1%R.
Proof. exact (@correlation_of_multiple_lem). Qed.
Print Assumptions correlation_of_multiple.

(** The hypotheses are met by a concrete case. *)
Example correlation_single_step_bounds_ex : exists r, correlation_single_step [sk_line 1 2] [sk_line 1 1] 0 0 1 = Ok r.
Proof. exact (@correlation_single_step_bounds_ex_lem). Qed.

(** The hypotheses are met by a concrete case. *)
Example correlation_of_multiple_ex : (0 < 3)%R /\ (exists r, correlation_single_step (map (amap (fun x => 3 * x)%R) [sk_line 1 2]) [sk_line 1 2] 0 0 1 = Ok r) /\
  (forall l a, slice_along_axis [sk_line 1 2] (Z.of_nat 0) (PyInt 0) true = Ok l -> In a l -> allpos (shp a)).
Proof. exact (@correlation_of_multiple_ex_lem). Qed.

(** C61. correlation_single_step does not correlate states: its axes are shifted by the stacking of the components, so it normalises over the batch axis. For two samples of one cell, with predictions (1, 2) and targets (1, 1), each prediction is a positive multiple of its target, but the result is 3 / sqrt 10, not 1. *)
Theorem correlation_per_sample_refuted : ~ (forall (p t : arr R) (c : Z -> R) r, shp p = shp t -> (forall b, (0 < c b)%R) ->
  (forall ix, get p ix = c (nth 1 ix 0%Z) * get t ix)%R -> correlation_single_step [p] [t] 0 0 1 = Ok r -> r = 1%R).
Proof. exact (@correlation_per_sample_refuted_lem). Qed.
Print Assumptions correlation_per_sample_refuted.
