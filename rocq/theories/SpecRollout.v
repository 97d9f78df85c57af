(** * Vocabulary for rollouts *)
From Verif Require Import Prelude NdArr Grids_model.
Set Implicit Arguments.
Local Open Scope Z_scope.

(** [f] applied [n] times, as long as it does not fail. *)
Fixpoint iterate {X : Type} (n : nat) (f : X -> result X) (x : X) : result X :=
  match n with O => Ok x | S n => let* y := f x in iterate n f y end.
(** A trajectory leaf with [n] frames of shape [s], frame [k] having the values [F k]. *)
Definition has_frames {A} (a : arr A) (n : nat) (s : list nat) (F : nat -> list Z -> A) : Prop :=
  shp a = n :: s /\ forall k ix, (k < n)%nat -> inb s ix -> get a (Z.of_nat k :: ix) = F k ix.
(** The step [x + dt * dx], array by array. *)
Definition euler_step_of (dt : R) (x dx y : list (arr R)) : Prop :=
  map shp dx = map shp x /\ map shp y = map shp x /\
  forall j a d b, nth_error x j = Some a -> nth_error dx j = Some d -> nth_error y j = Some b -> forall ix, get b ix = (get a ix + dt * get d ix)%R.
(** State number [k] of a run from [x] that saved [frames]: the initial one, then the saved ones. *)
Definition state_before {T} (x : T) (frames : list T) (k : nat) : T := match k with O => x | S k => nth k frames x end.
(** What encoders are given: one array of snapshots of the grid for each velocity component. *)
Definition snapshots (g : grid) (T : nat) (x : list (arr R)) : Prop := length x = gndim g /\ Forall (fun a => shp a = T :: gshape g) x.
Definition darr0 : arr R := afull [] 0%R.
(** Periodic values of an array. *)
Definition wrapped (s : list nat) (F : list Z -> R) (ix : list Z) : R := F (wrap s ix).
