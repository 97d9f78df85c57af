(** * Specification vocabulary for C88: boundary conditions of several fields *)
From Verif Require Import Prelude NdArr Grids_model Spec.
Set Implicit Arguments.

(** The condition on the lower side of axis [ax] is periodic; on both sides. *)
Definition lower_periodic (c : gvar) (ax : nat) : Prop := exists t, nth_error (btypes (gbc c)) ax = Some (Periodic, t).
Definition both_periodic (c : gvar) (ax : nat) : Prop := nth_error (btypes (gbc c)) ax = Some (Periodic, Periodic).
Definition none_periodic (c : gvar) (ax : nat) : Prop := exists t t', nth_error (btypes (gbc c)) ax = Some (t, t') /\ t <> Periodic /\ t' <> Periodic.
(** Fields in [d] dimensions with a pair of conditions for every axis. *)
Definition fields_of (d : nat) (cs : list gvar) : Prop := forall c, In c cs -> gndim (ggrid (garray c)) = d /\ length (btypes (gbc c)) = d.
Definition agree_on (cs : list gvar) (ax : nat) : Prop := forall c c', In c cs -> In c' cs -> (lower_periodic c ax <-> lower_periodic c' ax).
(** Given boundary values as the constructors take them. *)
Definition given (vs : list (R * R)) : list (option R * option R) := map (fun v => (Some (fst v), Some (snd v))) vs.
(** Both sides of axis [a] are walls of kind [t], with the values [v] below and above. *)
Definition walls (b : bcs) (a : nat) (t : bctype) (v : R * R) : Prop := lower_wall b a t (fst v) /\ upper_wall b a t (snd v).
