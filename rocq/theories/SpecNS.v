(** * Vocabulary for the Navier-Stokes equations (forces, accelerations, steppers) *)
From Verif Require Import Prelude NdArr Grids_model Spec Boundaries_model FD_model TimeStep_model.
Set Implicit Arguments.

(** "[l] is one array per component of [v], on grid [g] and at the offset of that component, with values [F i]". *)
Definition fields_at (g : grid) (v : list gvar) (l : list garr) (F : nat -> list Z -> R) : Prop :=
  length l = length v /\
  forall i u w, nth_error v i = Some u -> nth_error l i = Some w -> is_field w g (goff (garray u)) (F i).

(** A staggered periodic velocity around the points [o] (cell centres when [o] is), with the boundary
    conditions [bs]. *)
Definition periodic_velocity (g : grid) (o : list Q) (bs : list bcs) (v : list gvar) : Prop :=
  periodic_vec g v /\ homogeneous_vec v /\ face_aligned o v /\ map gbc v = bs.

(** A pressure solver: returns a field at the points [o] whatever the velocity... *)
Definition pressure_solver (g : grid) (o : list Q) (solve : list gvar -> gvar -> bcs -> result garr) : Prop :=
  forall v q0 b, periodic_vec g v -> face_aligned o v -> perbc g b -> pressure_bc_from_velocity v = Ok b ->
    exists q, solve v q0 b = Ok q /\ wf_garr q /\ ggrid q = g /\ off_eq (goff q) o.
(** ... and one whose result has the divergence of the velocity as its laplacian. *)
Definition solves_poisson (g : grid) (o : list Q) (solve : list gvar -> gvar -> bcs -> result garr) : Prop :=
  forall v q0 b, periodic_vec g v -> face_aligned o v -> perbc g b -> pressure_bc_from_velocity v = Ok b ->
    exists q dv lq, solve v q0 b = Ok q /\ wf_garr q /\ ggrid q = g /\ off_eq (goff q) o /\
      divergence v = Ok dv /\ laplacian (mkgv q b) = Ok lq /\ aeq (gdata lq) (gdata dv).

(** A Butcher tableau with enough coefficients in every row (row [i] of [a] holds those of stage [i + 1]). *)
Definition explicit_tableau (t : tableau) : Prop :=
  (length (ta t) + 1 = length (tb t))%nat /\
  forall i row, nth_error (ta t) i = Some row -> (i + 1 <= length row)%nat.

(** Total of component [i]. *)
Definition momentum (v : list gvar) (i : nat) : R :=
  match nth_error v i with Some u => total (gdata (garray u)) | None => 0%R end.
