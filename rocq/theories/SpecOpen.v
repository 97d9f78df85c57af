(** * Vocabulary for pressure boundary conditions with open (Dirichlet) sides *)
From Verif Require Import Prelude NdArr Grids_model Spec SpecLin.
Set Implicit Arguments.
Local Open Scope Z_scope.

(** Along every axis the pressure is periodic, or has zero Dirichlet or Neumann conditions. *)
Definition pressure_conditions (g : grid) (pb : bcs) : Prop :=
  forall a, (a < gndim g)%nat -> periodic_axis pb a \/
    exists t1 t2, lower_wall pb a t1 0 /\ upper_wall pb a t2 0 /\ (t1 = Dirichlet \/ t1 = Neumann) /\ (t2 = Dirichlet \/ t2 = Neumann).
(** One side of axis [a] is open. *)
Definition open_side (pb : bcs) (a : nat) : Prop := lower_wall pb a Dirichlet 0 \/ upper_wall pb a Dirichlet 0.
(** Both sides of axis [a] are walls. *)
Definition closed_axis (pb : bcs) (a : nat) : Prop := lower_wall pb a Neumann 0 /\ upper_wall pb a Neumann 0.
(** Some component of [v] is bounded along some axis. *)
Definition not_all_periodic (v : list gvar) : Prop :=
  exists c a t1 t2, In c v /\ (a < gndim (ggrid (garray c)))%nat /\ nth_error (btypes (gbc c)) a = Some (t1, t2) /\ t1 <> Periodic.
