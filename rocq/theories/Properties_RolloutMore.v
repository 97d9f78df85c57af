(** Generated by tools/gen.py from RolloutMoreProps.v: property theorems only. *)
From Verif Require Import Prelude NdArr Grids_model Spec SpecNS SpecRollout Boundaries_model BoundariesPeriodic FD_model Interp_model ArrayUtils_model PRep FDProofs FDProps InterpProps ArrayUtilsProps PressureProps PressureSolveProps EquationsProps Networks_model NetworksProps SkillProps Rollout_model RolloutProps.
From Verif Require Import RolloutMoreProps.
Local Open Scope Z_scope.
Set Implicit Arguments.

(** C63. euler_integrator for every derivative function and every pytree of arrays: when it returns there are num_steps frames, the final state is the last of them (the input if num_steps = 0), and each frame is exactly the previous one plus dt times the derivative there, array by array, with shapes kept.  It does return when the derivative always succeeds and keeps the shapes. *)
Theorem euler_integrator_frames : forall (f : list (arr R) -> result (list (arr R))) x dt n,
  (forall xf frames, euler_integrator f x dt n = Ok (xf, frames) -> length frames = n /\ xf = state_before x frames n /\
     forall k y, nth_error frames k = Some y -> exists dx, f (state_before x frames k) = Ok dx /\ euler_step_of dt (state_before x frames k) dx y) /\
  ((forall z, map shp z = map shp x -> exists dz, f z = Ok dz /\ map shp dz = map shp x) -> exists r, euler_integrator f x dt n = Ok r).
Proof. exact (@euler_integrator_frames_lem). Qed.
Print Assumptions euler_integrator_frames.

(** The hypotheses are met by a concrete case. *)
Example euler_integrator_frames_ex : let f z := Ok (map (amap (fun v => (- v)%R)) z) in let x := [mkarr [2%nat] (fun _ => 1%R); mkarr [] (fun _ => 2%R)] in
  (forall z : list (arr R), map shp z = map shp x -> exists dz, f z = Ok dz /\ map shp dz = map shp x) /\ exists r, euler_integrator f x 1 3 = Ok r /\ length (snd r) = 3%nat.
Proof. exact (@euler_integrator_frames_ex_lem). Qed.

(** C63. For the linear derivative c * x, every value after k + 1 Euler steps is (1 + c*dt)^(k+1) times the initial one. *)
Theorem euler_integrator_linear : forall (c dt : R) (x : list (arr R)) n,
  exists xf frames, euler_integrator (fun z => Ok (map (amap (Rmult c)) z)) x dt n = Ok (xf, frames) /\ length frames = n /\
    forall k y j a b, nth_error frames k = Some y -> nth_error x j = Some a -> nth_error y j = Some b -> shp b = shp a /\ forall ix, get b ix = ((1 + c * dt) ^ (k + 1) * get a ix)%R.
Proof. exact (@euler_integrator_linear_lem). Qed.
Print Assumptions euler_integrator_linear.

(** The hypotheses are met by a concrete case. *)
Example euler_integrator_linear_ex : exists xf frames, euler_integrator (fun z => Ok (map (amap (Rmult (-1))) z)) [afull [2%nat] 1%R] (1 / 2) 4 = Ok (xf, frames) /\ length frames = 4%nat.
Proof. exact (@euler_integrator_linear_ex_lem). Qed.
