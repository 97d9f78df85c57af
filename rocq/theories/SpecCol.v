(** * Vocabulary for collocated grids *)
From Verif Require Import Prelude NdArr Grids_model Spec Boundaries_model FD_model.
Set Implicit Arguments.

(** All components live at the same points [o]. *)
Definition collocated (o : list Q) (v : list gvar) : Prop := Forall (fun u => off_eq (goff (garray u)) o) v.
(** Centred difference quotient along axis [a], centred divergence of [Fs] and of the gradient of [F] (periodic). *)
Definition centred_difference (g : grid) (a : nat) (F : list Z -> R) (ix : list Z) : R :=
  ((F (next a ix) - F (prev a ix)) / (2 * hstep g a))%R.
Definition centred_div (g : grid) (Fs : nat -> list Z -> R) (ix : list Z) : R :=
  nsum (gndim g) (fun a => centred_difference g a (Fs a) ix).
Definition centred_laplacian (g : grid) (F : list Z -> R) : list Z -> R :=
  centred_div g (fun a => centred_difference g a F).
(** A collocated periodic velocity at the points [o] with the boundary conditions [bs]. *)
Definition collocated_velocity (g : grid) (o : list Q) (bs : list bcs) (v : list gvar) : Prop :=
  periodic_vec g v /\ homogeneous_vec v /\ collocated o v /\ map gbc v = bs.
(** Total of component [i] of a tuple of arrays. *)
Definition component_total (l : list garr) (i : nat) : R :=
  match nth_error l i with Some a => total (gdata a) | None => 0%R end.
(** The hypothesis on the pressure solver: at the points of the velocity it solves the centred Poisson equation. *)
Definition solves_centred_poisson (g : grid) (o : list Q) (solve : list gvar -> gvar -> result garr) : Prop :=
  forall v, periodic_vec g v -> collocated o v -> exists q,
    (forall q0, periodic_field q0 -> ggrid (garray q0) = g -> solve v q0 = Ok q) /\ wf_garr q /\ ggrid q = g /\ off_eq (goff q) o /\
    forall ix, inb (gshape g) ix -> centred_laplacian g (pval q) ix = centred_div g (vval v) ix.
