(** Generated by tools/gen.py from BCAgreeProps.v: property theorems only. *)
From Verif Require Import Prelude NdArr Grids_model Spec Boundaries_model SpecBC.
From Verif Require Import BCAgreeProps.
Set Implicit Arguments.

(** C88. consistent_boundary_conditions looks only at the lower side of each axis: it succeeds exactly when on every axis the fields are all periodic below or all not, then reports that for every axis, in order, and otherwise raises InconsistentBoundaryConditionsError. *)
Theorem consistent_bc_characterised : forall d c cs, fields_of d (c :: cs) ->
  ((forall ax, (ax < d)%nat -> agree_on (c :: cs) ax) ->
     exists l, consistent_bc (c :: cs) = Ok l /\ length l = d /\ forall ax p, nth_error l ax = Some p -> forall x, In x (c :: cs) -> (p = true <-> lower_periodic x ax)) /\
  ((exists ax, (ax < d)%nat /\ ~ agree_on (c :: cs) ax) -> consistent_bc (c :: cs) = Err EBC).
Proof. exact (@consistent_bc_characterised_lem). Qed.
Print Assumptions consistent_bc_characterised.

(** C88. The pressure boundary conditions derived from a velocity whose components agree on which axes are periodic below: homogeneous, periodic on both sides of exactly those axes and Neumann on both sides of all others - whatever the conditions on the upper sides and whatever the kind of wall. *)
Theorem pressure_bc_characterised : forall d c cs, fields_of d (c :: cs) -> (forall ax, (ax < d)%nat -> agree_on (c :: cs) ax) ->
  exists b, pressure_bc_from_velocity (c :: cs) = Ok b /\ bhom b = true /\ length (btypes b) = d /\ forall ax, (ax < d)%nat ->
    (lower_periodic c ax -> nth_error (btypes b) ax = Some (Periodic, Periodic)) /\ (~ lower_periodic c ax -> nth_error (btypes b) ax = Some (Neumann, Neumann)).
Proof. exact (@pressure_bc_characterised_lem). Qed.
Print Assumptions pressure_bc_characterised.

(** C88. has_all_periodic_boundary_conditions holds exactly when every field is periodic on the lower side of every axis. *)
Theorem all_periodic_characterised : forall d cs, fields_of d cs -> (has_all_periodic cs = true <-> forall c ax, In c cs -> (ax < d)%nat -> lower_periodic c ax).
Proof. exact (@all_periodic_characterised_lem). Qed.
Print Assumptions all_periodic_characterised.

(** The hypotheses are met by a concrete case. *)
Example consistent_bc_characterised_ex : fields_of 2 [pipe_u; pipe_w] /\ (forall ax, (ax < 2)%nat -> agree_on [pipe_u; pipe_w] ax) /\ consistent_bc [pipe_u; pipe_w] = Ok [true; false] /\
  consistent_bc [pipe_u; pipe_field [1 # 2; 1]%Q [(Neumann, Neumann); (Neumann, Neumann)]] = Err EBC.
Proof. exact (@consistent_bc_characterised_ex_lem). Qed.

(** The hypotheses are met by a concrete case. *)
Example pressure_bc_characterised_ex : fields_of 2 [pipe_u; pipe_w] /\ (forall ax, (ax < 2)%nat -> agree_on [pipe_u; pipe_w] ax) /\ lower_periodic pipe_u 0 /\ ~ lower_periodic pipe_u 1.
Proof. exact (@pressure_bc_characterised_ex_lem). Qed.

(** The hypotheses are met by a concrete case. *)
Example all_periodic_characterised_ex : fields_of 2 [pipe_u; pipe_w] /\ has_all_periodic [pipe_u; pipe_w] = false /\ has_all_periodic [pipe_field [1; 1 # 2]%Q [(Periodic, Periodic); (Periodic, Periodic)]] = true.
Proof. exact (@all_periodic_characterised_ex_lem). Qed.

(** C88. Against the docstring ("checks that the boundary is either periodic or not and throws an error if its mixed"): a boundary that is periodic on one side of an axis and a wall on the other is not detected. It counts as periodic when the lower side is, so the derived pressure is periodic through the wall; the mirror-image conditions count as nonperiodic. Two fields of which only one is mixed also pass. *)
Theorem mixed_boundary_unnoticed_refuted : exists c c' p, fields_of 2 [c; c'; p] /\
  nth_error (btypes (gbc c)) 0 = Some (Periodic, Dirichlet) /\ nth_error (btypes (gbc c')) 0 = Some (Dirichlet, Periodic) /\ both_periodic p 0 /\
  consistent_bc [c] = Ok [true; true] /\ consistent_bc [c'] = Ok [false; true] /\ consistent_bc [c; p] = Ok [true; true] /\ consistent_bc [c; c'] = Err EBC /\ has_all_periodic [c; p] = true /\
  exists b, pressure_bc_from_velocity [c] = Ok b /\ nth_error (btypes b) 0 = Some (Periodic, Periodic).
Proof. exact (@mixed_boundary_unnoticed_refuted_lem). Qed.
Print Assumptions mixed_boundary_unnoticed_refuted.

(** C88. On properly built conditions (each axis of each field periodic on both sides or on neither) the check is what the docstring says: it succeeds exactly when every axis is periodic for all fields or for none, for the fields in any order. *)
Theorem consistent_bc_proper : forall d cs, cs <> [] -> fields_of d cs -> (forall c ax, In c cs -> (ax < d)%nat -> both_periodic c ax \/ none_periodic c ax) ->
  ((exists l, consistent_bc cs = Ok l) <-> forall ax, (ax < d)%nat -> (forall c, In c cs -> both_periodic c ax) \/ (forall c, In c cs -> none_periodic c ax)) /\
  (forall cs', Permutation cs cs' -> consistent_bc cs' = consistent_bc cs).
Proof. exact (@consistent_bc_proper_lem). Qed.
Print Assumptions consistent_bc_proper.

(** The hypotheses are met by a concrete case. *)
Example consistent_bc_proper_ex : let cs := [pipe_u; pipe_w; pipe_field [1 # 2; 1 # 2]%Q [(Periodic, Periodic); (Neumann, Neumann)]] in cs <> [] /\ fields_of 2 cs /\ (forall c ax, In c cs -> (ax < 2)%nat -> both_periodic c ax \/ none_periodic c ax) /\
  consistent_bc cs = Ok [true; false].
Proof. exact (@consistent_bc_proper_ex_lem). Qed.
