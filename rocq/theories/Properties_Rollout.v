(** Generated by tools/gen.py from RolloutProps.v: property theorems only. *)
From Verif Require Import Prelude NdArr Grids_model Spec SpecNS SpecRollout Boundaries_model BoundariesPeriodic FD_model Interp_model ArrayUtils_model PRep FDProofs FDProps InterpProps ArrayUtilsProps PressureProps PressureSolveProps EquationsProps Networks_model NetworksProps Rollout_model.
From Verif Require Import RolloutProps.
Local Open Scope Z_scope.
Set Implicit Arguments.

(** C63. model.trajectory (trajectory_from_step) with any step and post-processing functions, which may fail: it returns exactly when the outer_steps * inner_steps steps and the post-processing of the saved states all succeed; then the final state is the input advanced outer_steps * inner_steps times, there are outer_steps frames, and frame k is the post-processed state after (k + 1) * inner_steps steps (k * inner_steps with start_with_input). *)
Theorem rollout_frames : forall (X Y : Type) (step : X -> result X) outer inner (swi : bool) (post : X -> result Y) x,
  (forall xf frames, trajectory_from_step step outer inner swi post x = Ok (xf, frames) ->
     iterate (outer * inner) step x = Ok xf /\ length frames = outer /\
     forall k y, nth_error frames k = Some y -> exists s, iterate ((if swi then k else k + 1) * inner) step x = Ok s /\ post s = Ok y) /\
  ((exists r, trajectory_from_step step outer inner swi post x = Ok r) <->
     (exists xf, iterate (outer * inner) step x = Ok xf) /\
     forall k, (k < outer)%nat -> exists s y, iterate ((if swi then k else k + 1) * inner) step x = Ok s /\ post s = Ok y).
Proof. exact (@rollout_frames_lem). Qed.
Print Assumptions rollout_frames.

(** The hypotheses are met by a concrete case. *)
Example rollout_frames_ex : trajectory_from_step (fun x => Ok (2 * x)) 3 2 false (fun x => Ok (x + 1)) 1 = Ok (64, [5; 17; 65]) /\
  trajectory_from_step (fun x => if x <? 10 then Ok (2 * x) else Err EValue) 3 2 true (fun x => Ok (x + 1)) 1 = Err EValue.
Proof. exact (@rollout_frames_ex_lem). Qed.

(** C63. Checkpointing a rollout: a trajectory of m + n outer steps is the trajectory of m steps followed by the trajectory of n steps from its final state (same final state, frames appended, same failures), for all m, n, inner steps and functions. *)
Theorem rollout_restart : forall (X Y : Type) (step : X -> result X) m n inner (swi : bool) (post : X -> result Y) x,
  trajectory_from_step step (m + n) inner swi post x =
  (let* r := trajectory_from_step step m inner swi post x in
   let* q := trajectory_from_step step n inner swi post (fst r) in Ok (fst q, snd r ++ snd q)).
Proof. exact (@rollout_restart_lem). Qed.
Print Assumptions rollout_restart.

(** The hypotheses are met by a concrete case. *)
Example rollout_restart_ex : trajectory_from_step (fun x => Ok (3 * x)) (1 + 2) 1 true (fun x => Ok x) 1 = Ok (27, [1; 3; 9]).
Proof. exact (@rollout_restart_ex_lem). Qed.

(** C63. Saving less often does not change what is saved: with inner_steps = n > 0, frame k of a rollout is frame (k + 1) * n - 1 of the rollout that saves every step, and the final states agree. *)
Theorem rollout_subsampling : forall (X Y : Type) (step : X -> result X) outer inner (post : X -> result Y) x xf all, (0 < inner)%nat ->
  trajectory_from_step step (outer * inner) 1 false post x = Ok (xf, all) ->
  exists frames, trajectory_from_step step outer inner false post x = Ok (xf, frames) /\ length frames = outer /\
    forall k, (k < outer)%nat -> nth_error frames k = nth_error all ((k + 1) * inner - 1).
Proof. exact (@rollout_subsampling_lem). Qed.
Print Assumptions rollout_subsampling.

(** The hypotheses are met by a concrete case. *)
Example rollout_subsampling_ex : (0 < 2)%nat /\ trajectory_from_step (fun x => Ok (2 * x)) (2 * 2) 1 false (fun x => Ok x) 1 = Ok (16, [2; 4; 8; 16]).
Proof. exact (@rollout_subsampling_ex_lem). Qed.

(** C63. decoded_trajectory_with_inputs for every model (encoder, decoder and step, which may fail) and every collection of arrays with at least num_init_frames time steps: the encoder sees exactly the first num_init_frames frames (nothing later can influence the prediction), its errors are passed on, and otherwise each output has num_init_frames + outer_steps frames: the input frames, then the decoded states after inner_steps, 2 * inner_steps, ... steps; the returned state is the encoded one advanced outer_steps * inner_steps times. *)
Theorem decoded_rollout : forall (A S : Type) (d : arr A) (encode : list (arr A) -> result S) (decode : S -> result (list (arr A))) (advance : S -> result S) n x ss outer inner,
  x <> [] -> (0 < outer)%nat -> Forall2 (fun a s => exists T, shp a = T :: s /\ (n <= T)%nat) x ss -> (forall s s', In s ss -> In s' ss -> length s = length s') ->
  exists first, Forall2 (fun a p => has_frames p n (tl (shp a)) (fun k ix => get a (Z.of_nat k :: ix))) x first /\
    (forall e, encode first = Err e -> decoded_trajectory_with_inputs d encode decode advance (Z.of_nat n) x outer inner = Err e) /\
    forall s0 sf ys, encode first = Ok s0 -> iterate (outer * inner) advance s0 = Ok sf -> length ys = outer ->
      (forall k y, nth_error ys k = Some y -> map shp y = ss /\ exists s, iterate ((k + 1) * inner) advance s0 = Ok s /\ decode s = Ok y) ->
      exists out, decoded_trajectory_with_inputs d encode decode advance (Z.of_nat n) x outer inner = Ok (sf, out) /\ length out = length x /\
        forall j a o, nth_error x j = Some a -> nth_error out j = Some o ->
          has_frames o (n + outer) (tl (shp a)) (fun k ix => if (k <? n)%nat then get a (Z.of_nat k :: ix) else get (nth j (nth (k - n) ys []) d) ix).
Proof. exact (@decoded_rollout_lem). Qed.
Print Assumptions decoded_rollout.

(** The hypotheses are met by a concrete case. *)
Example decoded_rollout_ex : let x := [mkarr [4%nat; 2%nat] (fun ix => 10 * nth 0 ix 0 + nth 1 ix 0)] in
  let d := mkarr [] (fun _ => 0) in
  let encode t := match t with [a] => Ok (get a [1; 0], get a [1; 1]) | _ => Err EValue end in
  let decode s := Ok [mkarr [2%nat] (fun ix => if nth 0 ix 0 =? 0 then fst s else snd s)] in
  (x <> [] /\ Forall2 (fun a s => exists T, shp a = T :: s /\ (2 <= T)%nat) x [[2%nat]]) /\
  match decoded_trajectory_with_inputs d encode decode (fun s => Ok (fst s + 1, snd s * 2)) 2 x 3 2 with
  | Ok ((16, 704), [o]) => shp o = [5%nat; 2%nat] /\ map (get o) [[0; 1]; [1; 1]; [2; 0]; [2; 1]; [4; 1]] = [1; 11; 12; 44; 704] | _ => False end.
Proof. exact (@decoded_rollout_ex_lem). Qed.
