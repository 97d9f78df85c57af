(** * Specification vocabulary for C79: symmetries of a doubly periodic box

    Two-dimensional arrays of grid values; nothing here mentions the model. *)
From Verif Require Import Prelude NdArr.
Set Implicit Arguments.
Local Open Scope Z_scope.

(** [u'] is the field [u] seen from a point s cells further along the first axis and r cells further along the second. *)
Definition translated (n m : nat) (s r : Z) (u u' : arr R) : Prop :=
  shp u = [n; m] /\ shp u' = [n; m] /\
  forall i j, 0 <= i < Z.of_nat n -> 0 <= j < Z.of_nat m -> get u' [i; j] = get u [(i + s) mod Z.of_nat n; (j + r) mod Z.of_nat m].
(** [u'] is the scalar field [u] after half a turn around the first grid point. *)
Definition half_turn (n m : nat) (u u' : arr R) : Prop :=
  shp u = [n; m] /\ shp u' = [n; m] /\
  forall i j, 0 <= i < Z.of_nat n -> 0 <= j < Z.of_nat m -> get u' [i; j] = get u [(- i) mod Z.of_nat n; (- j) mod Z.of_nat m].
(** The components of a vector change sign under a half turn. *)
Definition half_turn_component (n m : nat) (u u' : arr R) : Prop :=
  shp u = [n; m] /\ shp u' = [n; m] /\
  forall i j, 0 <= i < Z.of_nat n -> 0 <= j < Z.of_nat m -> get u' [i; j] = (- get u [(- i) mod Z.of_nat n; (- j) mod Z.of_nat m])%R.
(** A forcing (a function of the two velocity components) that commutes with a motion of vector components. *)
Definition forcing_moves (n m : nat) (moved : arr R -> arr R -> Prop) (forcing : option (arr R -> arr R -> result (arr R * arr R))) : Prop :=
  match forcing with
  | None => True
  | Some f => forall vx vy vx' vy', moved vx vx' -> moved vy vy' ->
      exists fx fy fx' fy', f vx vy = Ok (fx, fy) /\ f vx' vy' = Ok (fx', fy') /\ moved fx fx' /\ moved fy fy'
  end.
