(** * Model of the evaluation step and of the differentiated loss: jax_cfd/ml/train_utils.py *)
From Verif Require Import Prelude NdArr Skill_model Rollout_model.
Set Implicit Arguments.

(** ml/train_utils.py:116-139 [eval_batch].  Metric names are numbers, the dictionary of metrics is the list of its
    items; metrics are any functions of prediction and target; any of the functions may fail. *)
Definition eval_batch {P V F T : Type} (trajectory_fn : P -> V -> result (F * T)) (metric_funcs : list (nat * (T -> V -> result R)))
  (params : P) (target_trajectory : V) : result (list (nat * R)) :=
  let* ft := trajectory_fn params target_trajectory in
  mapM (fun km => let* v := snd km (snd ft) target_trajectory in Ok (fst km, v)) metric_funcs.

(** ml/train_utils.py:142-168 [streaming_mean] with an evaluation function that may fail: the failure is passed on. *)
Definition evaluate {B : Type} (batches : list B) (eval_fn : B -> result (list (nat * R))) : result (list (nat * R)) :=
  let* values := mapM eval_fn batches in streaming_mean values (fun v => v).

(** ml/train_utils.py:61-82 [loss_and_gradient].  Parameters are flattened to lists of reals; [grad_of] stands for jax's
    differentiation (jax.value_and_grad): it is handed the very function [_loss] of the parameters, for the fixed target, and the point. *)
Definition loss_at {P V F T : Type} (trajectory_fn : P -> V -> result (F * T)) (loss_fn : T -> V -> result R) (target : V) (params : P) : result R :=
  let* ft := trajectory_fn params target in loss_fn (snd ft) target.
Definition loss_and_gradient {P V F T G : Type} (grad_of : (P -> result R) -> P -> result G) (trajectory_fn : P -> V -> result (F * T))
  (loss_fn : T -> V -> result R) (params : P) (target : V) : result (R * G) :=
  let* l := loss_at trajectory_fn loss_fn target params in
  let* g := grad_of (loss_at trajectory_fn loss_fn target) params in
  Ok (l, g).
