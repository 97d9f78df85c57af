(** Generated by tools/gen.py from SkillMoreProps.v: property theorems only. *)
From Verif Require Import Prelude NdArr Grids_model PRep ArrayUtils_model Equations_model EquationsMoreProps InitProofs Spectral_model ArrayUtilsProps Skill_model SpecSkill.
From Verif Require Import SkillMoreProps.
Local Open Scope Z_scope.
Set Implicit Arguments.

(** C61. l2_loss_single_step on trajectories with matching components (any number of components, any shapes, any time axis) is scale times the sum of squared differences over all entries of time step n, and over no others. *)
Theorem l2_single_step_value : forall trajectory target n scale ax rank steps, matched ax rank steps trajectory target -> 0 <= n < Z.of_nat steps ->
  l2_loss_single_step trajectory target n scale (Z.of_nat ax) =
    Ok (scale * rlist_sum (map (fun ab => sq_dist_where ax (Z.eqb n) (fst ab) (snd ab)) (combine trajectory target)))%R.
Proof. exact (@l2_single_step_value_lem). Qed.
Print Assumptions l2_single_step_value.

(** The hypotheses are met by a concrete case. *)
Example l2_single_step_value_ex : matched 1 2 3 [lossv 1; lossv 2] [lossv 2; lossv 2] /\ 0 <= 2 < Z.of_nat 3 /\
  sq_dist_where 1 (Z.eqb 2) (lossv 1) (lossv 2) = 1%R.
Proof. exact (@l2_single_step_value_ex_lem). Qed.

(** C61. l2_loss_cumulative with n (any nonnegative integer; None means all steps) is scale times the sum of squared differences over all entries of the first n time steps. *)
Theorem l2_cumulative_value : forall trajectory target (n : option Z) scale ax rank steps, matched ax rank steps trajectory target -> (forall m, n = Some m -> 0 <= m) ->
  l2_loss_cumulative trajectory target n scale (Z.of_nat ax) =
    Ok (scale * rlist_sum (map (fun ab => sq_dist_where ax (fun k => match n with Some m => k <? m | None => true end) (fst ab) (snd ab)) (combine trajectory target)))%R.
Proof. exact (@l2_cumulative_value_lem). Qed.
Print Assumptions l2_cumulative_value.

(** The hypotheses are met by a concrete case. *)
Example l2_cumulative_value_ex : matched 1 2 3 [lossv 1; lossv 2] [lossv 2; lossv 2] /\ (forall m, Some 2 = Some m -> 0 <= m) /\
  sq_dist_where 1 (fun k => k <? 2) (lossv 1) (lossv 2) = 2%R.
Proof. exact (@l2_cumulative_value_ex_lem). Qed.

(** C61. The cumulative loss over the first n steps is the sum of the n single-step losses. *)
Theorem l2_cumulative_sums_steps : forall trajectory target n scale ax rank steps, matched ax rank steps trajectory target -> (n <= steps)%nat ->
  exists (loss : Z -> R), (forall k, 0 <= k < Z.of_nat n -> l2_loss_single_step trajectory target k scale (Z.of_nat ax) = Ok (loss k)) /\
    l2_loss_cumulative trajectory target (Some (Z.of_nat n)) scale (Z.of_nat ax) = Ok (rsum n loss).
Proof. exact (@l2_cumulative_sums_steps_lem). Qed.
Print Assumptions l2_cumulative_sums_steps.

(** The hypotheses are met by a concrete case. *)
Example l2_cumulative_sums_steps_ex : matched 1 2 3 [lossv 1; lossv 2] [lossv 2; lossv 2] /\ (2 <= 3)%nat.
Proof. exact (@l2_cumulative_sums_steps_ex_lem). Qed.

(** C61. With a positive scale both losses are nonnegative, and the cumulative loss over all steps is zero exactly when the trajectories are equal at every entry; a single-step loss is zero exactly when they agree at that time step. *)
Theorem l2_zero_iff_equal : forall trajectory target n scale ax rank steps r, matched ax rank steps trajectory target -> (0 < scale)%R -> 0 <= n < Z.of_nat steps ->
  (l2_loss_single_step trajectory target n scale (Z.of_nat ax) = Ok r -> (0 <= r)%R /\
     (r = 0%R <-> Forall2 (fun a b => forall ix, inb (shp a) ix -> nth ax ix 0%Z = n -> get a ix = get b ix) trajectory target)) /\
  (l2_loss_cumulative trajectory target None scale (Z.of_nat ax) = Ok r -> (0 <= r)%R /\
     (r = 0%R <-> Forall2 (fun a b => forall ix, inb (shp a) ix -> get a ix = get b ix) trajectory target)).
Proof. exact (@l2_zero_iff_equal_lem). Qed.
Print Assumptions l2_zero_iff_equal.

(** The hypotheses are met by a concrete case. *)
Example l2_zero_iff_equal_ex : matched 1 2 3 [lossv 1; lossv 2] [lossv 2; lossv 2] /\ (0 < 2)%R /\ 0 <= 2 < Z.of_nat 3.
Proof. exact (@l2_zero_iff_equal_ex_lem). Qed.

(** C61. streaming_mean over any nonempty sequence of batches returns, under each key, the sum over all batches of the metric's value divided by the number of batches (a key absent from a batch counts as 0), and exactly the keys some batch reported; over no batches it raises. *)
Theorem streaming_mean_value : forall (B : Type) (batches : list B) (eval_fn : B -> list (nat * R)),
  (forall b, In b batches -> NoDup (map fst (eval_fn b))) ->
  (batches = [] -> streaming_mean batches eval_fn = Err EValue) /\
  (batches <> [] -> exists means, streaming_mean batches eval_fn = Ok means /\
     (forall k, lookup0 means k = (rlist_sum (map (fun b => lookup0 (eval_fn b) k) batches) / INR (length batches))%R) /\
     (forall k, In k (map fst means) <-> exists b, In b batches /\ In k (map fst (eval_fn b)))).
Proof. exact (@streaming_mean_value_lem). Qed.
Print Assumptions streaming_mean_value.

(** The hypotheses are met by a concrete case. *)
Example streaming_mean_value_ex : let f := fun b : nat => if (b =? 0)%nat then [(7%nat, 1%R)] else [(7%nat, 2%R); (8%nat, 5%R)] in
  (forall b, In b [0%nat; 1%nat] -> NoDup (map fst (f b))) /\ [0%nat; 1%nat] <> [].
Proof. exact (@streaming_mean_value_ex_lem). Qed.

(** C61. temporal_autocorrelation of any signal of T >= 2 samples with a positive time step dt: entry k is (1/T) times the sum of u(t) u(t + d) over all t with t + d < T, where d = k * max(1, floor(1/dt)), for exactly the d below T; and no entry exceeds the entry for displacement 0 in absolute value. *)
Theorem temporal_autocorrelation_value : forall (T : nat) (time u : Z -> R), (2 <= T)%nat -> (time 0%Z < time 1%Z)%R ->
  exists count corr, temporal_autocorrelation T time u = Ok (count, corr) /\
    let d := fun k => k * Z.max 1 (Int_part (1 / (time 1%Z - time 0%Z))) in
    (forall k, 0 <= k -> (k < Z.of_nat count <-> d k < Z.of_nat T)) /\
    forall k, 0 <= k < Z.of_nat count ->
      corr k = (rsum (T - Z.to_nat (d k)) (fun t => u t * u (t + d k)%Z) / INR T)%R /\ (Rabs (corr k) <= corr 0%Z)%R.
Proof. exact (@temporal_autocorrelation_value_lem). Qed.
Print Assumptions temporal_autocorrelation_value.

(** The hypotheses are met by a concrete case. *)
Example temporal_autocorrelation_value_ex : (2 <= 5)%nat /\ ((fun t => IZR t / 4) 0%Z < (fun t => IZR t / 4) 1%Z)%R.
Proof. exact (@temporal_autocorrelation_value_ex_lem). Qed.
