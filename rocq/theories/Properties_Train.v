(** Generated by tools/gen.py from TrainProps.v: property theorems only. *)
From Verif Require Import Prelude NdArr Grids_model Spec SpecNS SpecRollout Boundaries_model BoundariesPeriodic FD_model Interp_model ArrayUtils_model PRep FDProofs FDProps InterpProofs InterpProps ArrayUtilsProps PressureProps PressureSolveProps EquationsProps Networks_model NetworksProps ForcingsProps InitProps SkillProps Rollout_model RolloutProps RolloutMoreProps EncoderProps.
From Verif Require Import TrainProps.
Local Open Scope Z_scope.
Set Implicit Arguments.

(** C63. time_derivative_network_model for every grid, every chain of modules whose output has the shape of the state, and every forcing: the new state is, channel by channel and cell by cell, the old one plus dt times (the modules' output for the old state plus the forcing of the velocity read from its channels, channel i being the component on the faces of axis i). *)
Theorem time_derivative_network_step : forall g dt forcing modules (state y : arr R) Fv, wfg g -> (0 < gndim g)%nat -> shp state = gshape g ++ [gndim g] ->
  foldM (fun x module_fn => module_fn x) state modules = Ok y -> shp y = shp state ->
  (forall v, length v = gndim g -> (forall i, (i < gndim g)%nat -> gbc (nth i v dgv) = periodic_bc (gndim g) /\ is_field (garray (nth i v dgv)) g (nth i (cell_faces g) []) (fun ix => get state (ix ++ [Z.of_nat i]))) ->
     exists f, forcing v = Ok f /\ length f = gndim g /\ forall i, (i < gndim g)%nat -> shp (gdata (nth i f dga)) = gshape g /\ forall ix, inb (gshape g) ix -> get (gdata (nth i f dga)) ix = Fv i ix) ->
  exists r, time_derivative_network_model g dt forcing modules state = Ok r /\ shp r = shp state /\
    forall i ix, (i < gndim g)%nat -> inb (gshape g) ix -> get r (ix ++ [Z.of_nat i]) = (get state (ix ++ [Z.of_nat i]) + dt * (get y (ix ++ [Z.of_nat i]) + Fv i ix))%R.
Proof. exact (@time_derivative_network_step_lem). Qed.
Print Assumptions time_derivative_network_step.

(** The hypotheses are met by a concrete case. *)
Example time_derivative_network_step_ex : let s := mkarr [4%nat; 1%nat] (fun ix => IZR (nth 0 ix 0)) in
  let forcing (v : list gvar) := Ok (map (fun u => mkga (amap (fun x => - x)%R (gdata (garray u))) (goff (garray u)) (ggrid (garray u))) v) in
  exists r, time_derivative_network_model enc_g (1 / 2) forcing [fun x => Ok (amap (fun a => 3 * a)%R x)] s = Ok r /\ get r [3; 0] = 6%R.
Proof. exact (@time_derivative_network_step_ex_lem). Qed.

(** C63. add_noise_to_input_frame for every batch of arrays with the same rank >= 2 and a nonempty time axis (axis 1), every key splitting and every sampler with values in [-2, 2]: shapes are kept, all frames except time 0 are unchanged, and the values of frame 0 change by at most 2*|scale|, by scale times the sample. *)
Theorem input_noise : forall (K : Type) (keys : K -> nat -> list K) truncated_normal batch rng scale, batch <> [] ->
  (forall k n, length (keys k n) = n) -> (forall k s ix, (Rabs (get (truncated_normal k s) ix) <= 2)%R) ->
  (forall a b, In a batch -> In b batch -> ndim a = ndim b) -> (forall a, In a batch -> (2 <= ndim a)%nat /\ (0 < nth 1 (shp a) 0)%nat) ->
  exists out, add_noise_to_input_frame keys truncated_normal batch rng scale = Ok out /\ length out = length batch /\
    forall j a b, nth_error batch j = Some a -> nth_error out j = Some b -> shp b = shp a /\
      (forall ix, nth 1 ix 0 <> 0 -> get b ix = get a ix) /\
      (exists key, In key (keys rng (length batch)) /\ forall ix, nth 1 ix 0 = 0 -> get b ix = (get a ix + scale * get (truncated_normal key (without 1 (shp a))) (without 1 ix))%R) /\
      forall ix, (Rabs (get b ix - get a ix) <= 2 * Rabs scale)%R.
Proof. exact (@input_noise_lem). Qed.
Print Assumptions input_noise.

(** The hypotheses are met by a concrete case. *)
Example input_noise_ex : let a := mkarr [1%nat; 2%nat; 3%nat] (fun ix => IZR (nth 2 ix 0)) in
  (forall k n, length (repeat k n : list nat) = n) /\ (forall (k : nat) s ix, (Rabs (get (afull s (-2)%R) ix) <= 2)%R) /\
  exists out, add_noise_to_input_frame (fun k n => repeat k n) (fun (k : nat) s => afull s (-2)%R) [a] 7%nat (1 / 2) = Ok out /\ length out = 1%nat.
Proof. exact (@input_noise_ex_lem). Qed.

(** C63. Training on any sequence of batches with any loss, gradient and optimiser: when it returns, the step counter has advanced by the number of batches, and for each k the reported loss number k and its gradient are those of batch k at the parameters reached after exactly k updates, the update being called with step number start + k on the state of that moment. *)
Theorem train_loop_order : forall (P S B L G : Type) (loss_and_grad : P -> B -> result (L * G)) (update : Z -> G -> S -> result S) (params : S -> P) batches step st fin losses,
  train_loop (train_step loss_and_grad update params) (step, st) batches = Ok (fin, losses) ->
  length losses = length batches /\ exists states : list S, length states = length batches /\ fin = (step + Z.of_nat (length batches), state_before st states (length batches)) /\
    forall k b, nth_error batches k = Some b -> exists l gr s', loss_and_grad (params (state_before st states k)) b = Ok (l, gr) /\
      update (step + Z.of_nat k) gr (state_before st states k) = Ok s' /\ nth_error losses k = Some l /\ nth_error states k = Some s'.
Proof. exact (@train_loop_order_lem). Qed.
Print Assumptions train_loop_order.

(** The hypotheses are met by a concrete case. *)
Example train_loop_order_ex : train_loop (train_step (fun p b => Ok (p - b, 2 * (p - b))) (fun step gr s => if step <? 100 then Ok (s - gr) else Err EValue) (fun s => s)) (10, 8) [1; 2; 3] = Ok ((13, -4), [7; -8; 7]).
Proof. exact (@train_loop_order_ex_lem). Qed.

(** C63. Resuming from a checkpoint: training on the batches bs1 and then, from the returned (step, state), on bs2 is training on bs1 ++ bs2, losses included and with the same failures. *)
Theorem train_loop_resume : forall (S B L : Type) (step : S -> B -> result (S * L)) bs1 bs2 s,
  train_loop step s (bs1 ++ bs2) = (let* r := train_loop step s bs1 in let* q := train_loop step (fst r) bs2 in Ok (fst q, snd r ++ snd q)).
Proof. exact (@train_loop_resume_lem). Qed.
Print Assumptions train_loop_resume.

(** The hypotheses are met by a concrete case. *)
Example train_loop_resume_ex : train_loop (fun s b => Ok (s + b, s * b)) 1 ([2; 3] ++ [4]) = Ok (10, [2; 9; 24]).
Proof. exact (@train_loop_resume_ex_lem). Qed.

(** C63. preprocess: batch number k that it yields is the preprocessing of batch k of the data with key k of the stream, each used exactly once and in order. *)
Theorem preprocess_order : forall (B K C : Type) (f : B -> K -> result C) data rngs n out, preprocess f data rngs n = Ok out ->
  length out = n /\ forall k y, nth_error out k = Some y -> exists b r, nth_error data k = Some b /\ nth_error rngs k = Some r /\ f b r = Ok y.
Proof. exact (@preprocess_order_lem). Qed.
Print Assumptions preprocess_order.

(** The hypotheses are met by a concrete case. *)
Example preprocess_order_ex : preprocess (fun b k => Ok (b * k)) [1; 2; 3] [5; 6; 7; 8] 2 = Ok [5; 12].
Proof. exact (@preprocess_order_ex_lem). Qed.
