(** Generated by tools/gen.py from ForcingsProps.v: property theorems only. *)
From Verif Require Import Prelude NdArr LinAlg Cplx Grids_model Spec Boundaries_model FD_model PRep FDProofs FDProps GridProps FastDiag_model Advection_model PressureProps Equations_model PressureSolveProps SpecNS EquationsProps EquationsMoreProps FilterProps Forcings_model SpecForce.
From Coq Require Import Qreals.
From Verif Require Import ForcingsProps.
Local Open Scope Z_scope.
Set Implicit Arguments.

(** C47. no_forcing returns for every velocity zero fields at the velocity's offsets, and linear_forcing with coefficient c returns c times each component (energy input rate exactly 2c times the kinetic energy density sum). *)
Theorem elementary_forcings : forall g v c, periodic_vec g v ->
  (exists l, no_forcing v = Ok l /\ fields_at g v l (fun _ _ => 0%R)) /\
  (exists l, linear_forcing c v = Ok l /\ fields_at g v l (fun i ix => c * vval v i ix)%R).
Proof. exact (@elementary_forcings_lem). Qed.
Print Assumptions elementary_forcings.

(** C47. sum_forcings of any nonempty list of forcings that return fields on the velocity's grid and offsets is the pointwise sum of what the parts return for the same velocity; with an empty list it raises. *)
Theorem sum_forcings_pointwise : forall g v fs Fs,
  (forall v', sum_forcings [] v' = Err EType) /\
  ((0 < length fs)%nat -> (forall k f, nth_error fs k = Some f -> exists l, f v = Ok l /\ fields_at g v l (Fs k)) ->
   exists l, sum_forcings fs v = Ok l /\ fields_at g v l (fun i ix => nsum (length fs) (fun k => Fs k i ix))).
Proof. exact (@sum_forcings_pointwise_lem). Qed.
Print Assumptions sum_forcings_pointwise.

(** C47. kolmogorov_forcing on every 2- or 3-dimensional grid succeeds and returns a force that does not depend on the velocity, on the cell faces of the grid: the first component is scale * sin(k * y) at the y coordinate of the face (with swap_xy the second one is scale * sin(k * x)) and the others are zero. *)
Theorem kolmogorov_forcing_spec : forall g scale k swap, wfg g -> gndim g = 2%nat \/ gndim g = 3%nat ->
  exists F f, kolmogorov_forcing g scale k swap None = Ok F /\ (forall v, F v = Ok f) /\ length f = gndim g /\
    forall i w, nth_error f i = Some w -> is_field w g (offs i (1 # 2) (cell_center g)) (fun ix =>
      if (i =? (if swap then 1 else 0))%nat then (scale * sin (k * coord g (cell_center g) (if swap then 0 else 1)%nat ix))%R else 0%R).
Proof. exact (@kolmogorov_forcing_spec_lem). Qed.
Print Assumptions kolmogorov_forcing_spec.

(** C47. kolmogorov_forcing raises on every grid with fewer than two or more than three dimensions. *)
Theorem kolmogorov_forcing_dimensions : forall g scale k swap, wfg g ->
  ((gndim g < 2)%nat -> kolmogorov_forcing g scale k swap None = Err EIndex) /\
  ((3 < gndim g)%nat -> kolmogorov_forcing g scale k swap None = Err ENotImpl).
Proof. exact (@kolmogorov_forcing_dimensions_lem). Qed.
Print Assumptions kolmogorov_forcing_dimensions.

(** C47. The Kolmogorov force is discretely divergence free on every periodic 2- or 3-dimensional grid, for every scale, wave number and orientation, and even when the force is not periodic over the domain. *)
Theorem kolmogorov_forcing_divergence_free : forall g scale k swap, wfg g -> gndim g = 2%nat \/ gndim g = 3%nat ->
  exists F f d, kolmogorov_forcing g scale k swap None = Ok F /\ (forall v, F v = Ok f) /\
    divergence (as_periodic g f) = Ok d /\ is_field d g (cell_center g) (fun _ => 0%R).
Proof. exact (@kolmogorov_forcing_divergence_free_lem). Qed.
Print Assumptions kolmogorov_forcing_divergence_free.

(** C47. The Kolmogorov force adds no net momentum (each component sums to zero) whenever sin(k * midpoint) = 0 at the middle of the axis it varies along, for instance for every integer wave number on a domain [0, 2 pi]. *)
Theorem kolmogorov_forcing_total : forall g scale k (swap : bool), wfg g -> gndim g = 2%nat \/ gndim g = 3%nat ->
  (let a := (if swap then 0 else 1)%nat in sin (k * (fst (nth a (gdomain g) (0, 0)) + INR (nth a (gshape g) 0%nat) * hstep g a / 2)) = 0)%R ->
  exists F f, kolmogorov_forcing g scale k swap None = Ok F /\ (forall v, F v = Ok f) /\ forall w, In w f -> total (gdata w) = 0%R.
Proof. exact (@kolmogorov_forcing_total_lem). Qed.
Print Assumptions kolmogorov_forcing_total.

(** C47. Custom offsets are not honoured throughout: for collocated offsets kolmogorov_forcing returns a zero component at the staggered position instead of the requested one. *)
Theorem kolmogorov_offsets_honoured_refuted :
  ~ (forall g scale k swap offsets F f, wfg g -> (forall o, In o offsets -> length o = gndim g) -> length offsets = gndim g ->
       kolmogorov_forcing g scale k swap (Some offsets) = Ok F -> F [] = Ok f ->
       forall i w o, nth_error f i = Some w -> nth_error offsets i = Some o -> off_eq (goff w) o).
Proof. exact (@kolmogorov_offsets_honoured_refuted_lem). Qed.
Print Assumptions kolmogorov_offsets_honoured_refuted.

(** C47. simple_turbulence_forcing rejects unknown names; on every periodic 2- or 3-dimensional staggered velocity the 'kolmogorov' force is linear_coefficient times the velocity plus the Kolmogorov force. *)
Theorem simple_turbulence_kolmogorov : forall g magnitude k lin v, wfg g -> gndim g = 2%nat \/ gndim g = 3%nat -> periodic_vec g v -> face_aligned (cell_center g) v ->
  simple_turbulence_forcing g magnitude k lin FUnknown = Err EValue /\
  exists F l, simple_turbulence_forcing g magnitude k lin FKolmogorov = Ok F /\ F v = Ok l /\
    fields_at g v l (fun i ix => lin * vval v i ix + (if (i =? 0)%nat then magnitude * sin (k * coord g (cell_center g) 1 ix) else 0))%R.
Proof. exact (@simple_turbulence_kolmogorov_lem). Qed.
Print Assumptions simple_turbulence_kolmogorov.

(** The hypotheses are met by a concrete case. *)
Example elementary_forcings_ex : periodic_vec p34g p34v /\ momentum p34v 1 = 9%R.
Proof. exact (@elementary_forcings_ex_lem). Qed.

(** The hypotheses are met by a concrete case. *)
Example sum_forcings_pointwise_ex : exists Fs : nat -> nat -> list Z -> R, (0 < length [no_forcing; linear_forcing 2])%nat /\
  (forall k f, nth_error [no_forcing; linear_forcing 2] k = Some f -> exists l, f p34v = Ok l /\ fields_at p34g p34v l (Fs k)).
Proof. exact (@sum_forcings_pointwise_ex_lem). Qed.

(** The hypotheses are met by a concrete case. *)
Example kolmogorov_forcing_spec_ex : wfg p34g /\ gndim p34g = 2%nat /\ coord p34g (cell_center p34g) 1 [0; 1] = (3 / 4)%R.
Proof. exact (@kolmogorov_forcing_spec_ex_lem). Qed.

(** The hypotheses are met by a concrete case. *)
Example kolmogorov_forcing_dimensions_ex : wfg (mkgrid [2%nat] [1%R] [(0%R, 2%R)]) /\ (gndim (mkgrid [2%nat] [1%R] [(0%R, 2%R)]) < 2)%nat /\
  wfg (mkgrid [2; 2; 1; 3]%nat [1; 1; 1; 1]%R (repeat (0, 2)%R 4)) /\ (3 < gndim (mkgrid [2; 2; 1; 3]%nat [1; 1; 1; 1]%R (repeat (0, 2)%R 4)))%nat.
Proof. exact (@kolmogorov_forcing_dimensions_ex_lem). Qed.

(** The hypotheses are met by a concrete case. *)
Example kolmogorov_forcing_divergence_free_ex : let g := mkgrid [3; 4; 2]%nat [1; 2; 3]%R [(0, 3); (1, 9); (0, 6)]%R in wfg g /\ gndim g = 3%nat.
Proof. exact (@kolmogorov_forcing_divergence_free_ex_lem). Qed.

(** The hypotheses are met by a concrete case. *)
Example kolmogorov_forcing_total_ex : let g := mkgrid [3; 4]%nat [1; PI / 2]%R [(0, 3); (0, 2 * PI)]%R in wfg g /\ gndim g = 2%nat /\
  (sin (3 * (fst (nth 1 (gdomain g) (0, 0)) + INR (nth 1 (gshape g) 0%nat) * hstep g 1 / 2)) = 0)%R.
Proof. exact (@kolmogorov_forcing_total_ex_lem). Qed.

(** The hypotheses are met by a concrete case. *)
Example simple_turbulence_kolmogorov_ex : wfg p34g /\ gndim p34g = 2%nat /\ periodic_vec p34g p34v /\ face_aligned (cell_center p34g) p34v.
Proof. exact (@simple_turbulence_kolmogorov_ex_lem). Qed.
