(** * Specification vocabulary for C81: runs of time steppers and exact solutions *)
From Verif Require Import Prelude NdArr Grids_model Spec.
Set Implicit Arguments.

(** [c'] is [c] advanced by one forward-Euler step of length [dt]: [c + dt * rhs(c)], same boundary conditions. *)
Definition euler_step (rhs : gvar -> result garr) (dt : R) (c c' : gvar) : Prop :=
  exists d, rhs c = Ok d /\ gbc c' = gbc c /\
    is_field (garray c') (ggrid (garray c)) (goff (garray c)) (fun ix => get (gdata (garray c)) ix + dt * get (gdata d) ix)%R.
(** From time 0 on, [r] is the time derivative of [u] at every point of [d]-dimensional space, and the second
    time derivative of [u] exists and is bounded by [K]. *)
Definition has_rate (d : nat) (K : R) (u r : R -> list R -> R) : Prop :=
  (forall t x, (0 <= t)%R -> length x = d -> derivable_pt_lim (fun s => u s x) t (r t x)) /\
  exists r', forall t x, (0 <= t)%R -> length x = d -> derivable_pt_lim (fun s => r s x) t (r' t x) /\ (Rabs (r' t x) <= K)%R.
