(** Generated by tools/gen.py from EvaluationProps.v: property theorems only. *)
From Verif Require Import Prelude NdArr Skill_model SpecSkill SkillMoreProps Rollout_model SpecGradient Evaluation_model.
From Verif Require Import EvaluationProps.
Local Open Scope Z_scope.
Set Implicit Arguments.

(** C96. Evaluating a model over any nonempty sequence of batches with eval_batch and streaming_mean: when the model and the metrics run, the result has exactly the names of the metrics, and under each name the mean over the batches of that metric of (the trajectory the model predicts for the batch with the given parameters, the batch itself), in this order of arguments. *)
Theorem evaluation_means : forall (P V F T : Type) (trajectory_fn : P -> V -> result (F * T)) (metric_funcs : list (nat * (T -> V -> result R)))
    (params : P) (batches : list V) (final : V -> F) (prediction : V -> T) (value : nat -> V -> R),
  NoDup (map fst metric_funcs) -> batches <> [] ->
  (forall b, In b batches -> trajectory_fn params b = Ok (final b, prediction b)) ->
  (forall b k metric, In b batches -> In (k, metric) metric_funcs -> metric (prediction b) b = Ok (value k b)) ->
  exists means, evaluate batches (eval_batch trajectory_fn metric_funcs params) = Ok means /\
    (forall k, In k (map fst means) <-> In k (map fst metric_funcs)) /\
    forall k metric, In (k, metric) metric_funcs -> lookup0 means k = (rlist_sum (map (value k) batches) / INR (length batches))%R.
Proof. exact (@evaluation_means_lem). Qed.
Print Assumptions evaluation_means.

(** The hypotheses are met by a concrete case. *)
Example evaluation_means_ex : let tf := fun (p b : R) => Ok (b, (p * b)%R) in let ms := [(3%nat, fun t v : R => Ok (t - v)%R); (5%nat, fun t v : R => Ok (v * v)%R)] in
  exists means, evaluate [1%R; 3%R] (eval_batch tf ms 2%R) = Ok means /\ lookup0 means 3%nat = 2%R /\ lookup0 means 5%nat = 5%R.
Proof. exact (@evaluation_means_ex_lem). Qed.

(** C96. A metric that is never negative and vanishes only on agreement (such as the l2 losses) gets, from an evaluation over any number of batches, the value 0 exactly when the model predicts every batch exactly; there is no cancellation between batches. *)
Theorem evaluation_zero_iff_perfect : forall (V F : Type) (P : Type) (trajectory_fn : P -> V -> result (F * V)) (metric : V -> V -> R) (k : nat)
    (params : P) (batches : list V) (final : V -> F) (prediction : V -> V),
  (forall t v, 0 <= metric t v)%R -> (forall t v, metric t v = 0%R <-> t = v) -> batches <> [] ->
  (forall b, In b batches -> trajectory_fn params b = Ok (final b, prediction b)) ->
  exists value, evaluate batches (eval_batch trajectory_fn [(k, fun t v => Ok (metric t v))] params) = Ok [(k, value)] /\
    (value = 0%R <-> forall b, In b batches -> prediction b = b).
Proof. exact (@evaluation_zero_iff_perfect_lem). Qed.
Print Assumptions evaluation_zero_iff_perfect.

(** The hypotheses are met by a concrete case. *)
Example evaluation_zero_iff_perfect_ex : let tf := fun (p b : R) => Ok (b, (p + b)%R) in
  exists value, evaluate [1%R; 3%R] (eval_batch tf [(4%nat, fun t v : R => Ok (Rabs (t - v)))] 2%R) = Ok [(4%nat, value)] /\ value <> 0%R.
Proof. exact (@evaluation_zero_iff_perfect_ex_lem). Qed.

(** C96. loss_and_gradient with a correct differentiation, for any model and any loss differentiable at the parameters: it returns the loss of the trajectory predicted from the target with these parameters, and the one gradient of that loss with respect to the parameters, the target held fixed. *)
Theorem loss_and_gradient_correct : forall (V F T : Type) (grad_of : (list R -> result R) -> list R -> result (list R))
    (trajectory_fn : list R -> V -> result (F * T)) (loss_fn : T -> V -> result R) (target : V) (params g0 : list R)
    (final : list R -> F) (prediction : list R -> T) (loss : T -> R),
  (forall q, trajectory_fn q target = Ok (final q, prediction q)) -> (forall t, loss_fn t target = Ok (loss t)) ->
  (forall f, (forall q, f q = Ok (loss (prediction q))) -> exists g, grad_of f params = Ok g /\ is_gradient (fun q => loss (prediction q)) params g) ->
  is_gradient (fun q => loss (prediction q)) params g0 ->
  loss_and_gradient grad_of trajectory_fn loss_fn params target = Ok (loss (prediction params), g0).
Proof. exact (@loss_and_gradient_correct_lem). Qed.
Print Assumptions loss_and_gradient_correct.

(** The hypotheses are met by a concrete case. *)
Example loss_and_gradient_correct_ex : let tf := fun (q : list R) (v : R) => Ok (v, (2 * nth 0 q 0 - v)%R) in
  loss_and_gradient (fun _ _ => Ok [2%R]) tf (fun t v => Ok (t + v)%R) [7%R] 3%R = Ok (14%R, [2%R]).
Proof. exact (@loss_and_gradient_correct_ex_lem). Qed.

(** C96. A training step that subtracts the learning rate times the gradient reports the loss at the old parameters; and whenever the gradient is not zero, every sufficiently small positive learning rate makes the loss on the same batch strictly smaller after the step. *)
Theorem gradient_step_descends : forall (V F T : Type) (grad_of : (list R -> result R) -> list R -> result (list R))
    (trajectory_fn : list R -> V -> result (F * T)) (loss_fn : T -> V -> result R) (target : V) (params g0 : list R) (step : Z)
    (final : list R -> F) (prediction : list R -> T) (loss : T -> R),
  (forall q, trajectory_fn q target = Ok (final q, prediction q)) -> (forall t, loss_fn t target = Ok (loss t)) ->
  (forall f, (forall q, f q = Ok (loss (prediction q))) -> exists g, grad_of f params = Ok g /\ is_gradient (fun q => loss (prediction q)) params g) ->
  is_gradient (fun q => loss (prediction q)) params g0 -> (exists x, In x g0 /\ x <> 0%R) ->
  exists lr0, (0 < lr0)%R /\ forall lr, (0 < lr < lr0)%R -> exists new_params,
    train_step (loss_and_gradient grad_of trajectory_fn loss_fn) (fun _ g p => Ok (vplus p (vscale (- lr) g))) (fun p => p) (step, params) target
      = Ok ((step + 1, new_params), loss (prediction params)) /\
    (loss (prediction new_params) < loss (prediction params))%R.
Proof. exact (@gradient_step_descends_lem). Qed.
Print Assumptions gradient_step_descends.

(** The hypotheses are met by a concrete case. *)
Example gradient_step_descends_ex : is_gradient (fun q => (2 * nth 0 q 0)%R) [7%R] [2%R] /\ (exists x, In x [2%R] /\ x <> 0%R).
Proof. exact (@gradient_step_descends_ex_lem). Qed.
