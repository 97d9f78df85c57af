(** Generated by tools/gen.py from InterpProps.v: property theorems only. *)
From Coq Require Import Qreals.
From Verif Require Import Prelude NdArr Grids_model Spec Boundaries_model BoundariesPeriodic FD_model PRep FDProofs FDProps Interp_model InterpProofs.
From Verif Require Import InterpProps.
Local Open Scope Z_scope.
Set Implicit Arguments.

(** C24. Linear interpolation of a periodic variable to any offset returns a variable at exactly that offset, with the same grid and boundary conditions, whose values are the multilinear interpolation (weights 1-f and f on the two nearest neighbours, axis by axis). *)
Theorem linear_interpolation_spec : forall c o', periodic_field c -> length o' = gndim (ggrid (garray c)) ->
  exists w, linear_interp c o' = Ok w /\ gbc w = gbc c /\
    is_field (garray w) (ggrid (garray c)) o'
      (lerp (gndim (ggrid (garray c))) (goff (garray c)) o' (pval (garray c))).
Proof. exact (@linear_interpolation_spec_lem). Qed.
Print Assumptions linear_interpolation_spec.

(** The hypotheses are met by a concrete case. *)
Example linear_interpolation_spec_ex :
  periodic_field ipc /\
  lerp 2 (goff (garray ipc)) [1%Q; (1 # 4)%Q] (pval (garray ipc)) [0; 1] = (5 + 3 / 4)%R /\
  lerp 2 (goff (garray ipc)) [1%Q; (1 # 2)%Q] (pval (garray ipc)) [3; 0] = 15%R.
Proof. exact (@linear_interpolation_spec_ex_lem). Qed.

(** C24. Interpolating to the variable's own offset returns the variable itself, whatever its boundary conditions. *)
Theorem linear_interpolation_identity : forall c o', off_eq o' (goff (garray c)) -> linear_interp c o' = Ok c.
Proof. exact (@linear_interpolation_identity_lem). Qed.
Print Assumptions linear_interpolation_identity.

(** The hypotheses are met by a concrete case. *)
Example linear_interpolation_identity_ex : off_eq [(2 # 4)%Q; (1 # 2)%Q] (goff (garray ipc)).
Proof. exact (@linear_interpolation_identity_ex_lem). Qed.

(** C24. A target offset with a number of entries different from the variable's offset raises ValueError. *)
Theorem linear_interpolation_bad_length : forall c o', length o' <> length (goff (garray c)) -> linear_interp c o' = Err EValue.
Proof. exact (@linear_interpolation_bad_length_lem). Qed.
Print Assumptions linear_interpolation_bad_length.

(** The hypotheses are met by a concrete case. *)
Example linear_interpolation_bad_length_ex : length [(1 # 2)%Q] <> length (goff (garray ipc)).
Proof. exact (@linear_interpolation_bad_length_ex_lem). Qed.

(** C24. Linear interpolation creates no new extrema: every interpolated value lies within any bounds on the data (in particular constants are preserved). *)
Theorem linear_interpolation_bounded : forall c o' w m M, periodic_field c -> length o' = gndim (ggrid (garray c)) ->
  linear_interp c o' = Ok w ->
  (forall ix, inb (gshape (ggrid (garray c))) ix -> (m <= get (gdata (garray c)) ix <= M)%R) ->
  forall ix, inb (gshape (ggrid (garray c))) ix -> (m <= get (gdata (garray w)) ix <= M)%R.
Proof. exact (@linear_interpolation_bounded_lem). Qed.
Print Assumptions linear_interpolation_bounded.

(** The hypotheses are met by a concrete case. *)
Example linear_interpolation_bounded_ex :
  periodic_field ipc /\ (exists w, linear_interp ipc [1%Q; (1 # 4)%Q] = Ok w) /\
  (forall ix, inb [4%nat; 2%nat] ix -> (0 <= get (gdata (garray ipc)) ix <= 31)%R).
Proof. exact (@linear_interpolation_bounded_ex_lem). Qed.

(** C24. Linear interpolation of a periodic variable preserves its sum over all cells. *)
Theorem linear_interpolation_total : forall c o' w, periodic_field c -> length o' = gndim (ggrid (garray c)) ->
  linear_interp c o' = Ok w -> total (gdata (garray w)) = total (gdata (garray c)).
Proof. exact (@linear_interpolation_total_lem). Qed.
Print Assumptions linear_interpolation_total.

(** The hypotheses are met by a concrete case. *)
Example linear_interpolation_total_ex :
  periodic_field ipc /\ (exists w, linear_interp ipc [1%Q; (1 # 4)%Q] = Ok w) /\ total (gdata (garray ipc)) = 124%R.
Proof. exact (@linear_interpolation_total_ex_lem). Qed.

(** C24. Linear interpolation reproduces samples of an affine function of position wherever its stencil does not wrap around the domain. *)
Theorem linear_interpolation_affine : forall c o' w a0 sl ix, periodic_field c -> length o' = gndim (ggrid (garray c)) ->
  linear_interp c o' = Ok w ->
  (forall jx, inb (gshape (ggrid (garray c))) jx ->
     get (gdata (garray c)) jx = affine (ggrid (garray c)) (goff (garray c)) a0 sl jx) ->
  inb (gshape (ggrid (garray c))) ix ->
  (forall a, (a < gndim (ggrid (garray c)))%nat ->
     0 <= nth a ix 0 + Qfloor (nth a o' 0 - nth a (goff (garray c)) 0)%Q /\
     nth a ix 0 + Qfloor (nth a o' 0 - nth a (goff (garray c)) 0)%Q + 1 < Z.of_nat (nth a (gshape (ggrid (garray c))) 0%nat)) ->
  get (gdata (garray w)) ix = affine (ggrid (garray c)) o' a0 sl ix.
Proof. exact (@linear_interpolation_affine_lem). Qed.
Print Assumptions linear_interpolation_affine.

(** The hypotheses are met by a concrete case. *)
Example linear_interpolation_affine_ex :
  (forall jx, inb [4%nat; 2%nat] jx -> get (gdata (garray ipc)) jx = affine ipg (goff (garray ipc)) (- (5 + / 2)) (fun a => if (a =? 0)%nat then 10 else / 2)%R jx) /\
  (0 <= 1 + Qfloor (1 - (1 # 2))%Q /\ 1 + Qfloor (1 - (1 # 2))%Q + 1 < 4) /\ (0 <= 1 + Qfloor ((1 # 4) - (1 # 2))%Q /\ 1 + Qfloor ((1 # 4) - (1 # 2))%Q + 1 < 2).
Proof. exact (@linear_interpolation_affine_ex_lem). Qed.
