(** Generated by tools/gen.py from FluxLimitProps.v: property theorems only. *)
From Coq Require Import Qreals.
From Verif Require Import Prelude NdArr Grids_model Spec SpecDiff Boundaries_model BoundariesPeriodic FD_model PRep FDProofs FDProps Interp_model InterpProofs InterpProps UpwindProps TvdProps Advection_model AdvectionProofs AdvectionProps FluxLimit_model SpecLimit.
From Verif Require Import FluxLimitProps.
Local Open Scope Z_scope.
Set Implicit Arguments.

(** C78. Flux-limiting any interpolation whatsoever (in particular a learned one) with any limiter function: at the face half a cell ahead, whenever the interpolation answers there, the limited interpolation returns the value of the upwind cell, moved towards the answer by the limiter's value at the ratio of the upstream jump to the jump over the face; the field keeps its boundary conditions. *)
Theorem limited_any_base_spec : forall base c ax o' v u phi dt H, periodic_field c -> (ax < gndim (ggrid (garray c)))%nat ->
  off_eq o' (offs ax (1 # 2) (goff (garray c))) -> nth_error v ax = Some u ->
  wf_garr (garray u) -> ggrid (garray u) = ggrid (garray c) -> off_eq (goff (garray u)) o' ->
  answers base c o' v dt H ->
  exists w, tvd_limiter_transformation phi base c o' v dt = Ok w /\ gbc w = gbc c /\
    is_field (garray w) (ggrid (garray c)) o' (fun ix => limited_to phi c ax (get (gdata (garray u)) ix) (H ix) ix).
Proof. exact (@limited_any_base_spec_lem). Qed.
Print Assumptions limited_any_base_spec.

(** C78. Van Leer limiting of any interpolation: over a face with a jump, where the upstream jump has the opposite sign or vanishes (the upwind cell is an extremum) the result is the upwind value itself, whatever the interpolation answered; where the two jumps are equal it is the answer, unlimited. In a field of one value the result is that value, whatever the interpolation answered. *)
Theorem limited_any_base_faces : forall base c ax o' v u dt H w, periodic_field c -> (ax < gndim (ggrid (garray c)))%nat ->
  off_eq o' (offs ax (1 # 2) (goff (garray c))) -> nth_error v ax = Some u ->
  wf_garr (garray u) -> ggrid (garray u) = ggrid (garray c) -> off_eq (goff (garray u)) o' ->
  answers base c o' v dt H -> tvd_limiter_transformation van_leer_limiter base c o' v dt = Ok w ->
  forall ix, inb (gshape (ggrid (garray c))) ix -> let ui := get (gdata (garray u)) ix in let j := jump_at c ax ix in let k := jump_upstream c ax ui ix in
    (j <> 0%R -> (k * j <= 0)%R -> get (gdata (garray w)) ix = upwind_cell c ax ui ix) /\
    (j <> 0%R -> k = j -> get (gdata (garray w)) ix = H ix) /\
    (j = 0%R -> k = 0%R -> get (gdata (garray w)) ix = get (gdata (garray c)) ix).
Proof. exact (@limited_any_base_faces_lem). Qed.
Print Assumptions limited_any_base_faces.

(** C78. With any limiter whose values lie in [0, 2], at every face where the answer of the interpolation lies between the upwind value and the mean of the two adjacent cells, the limited value lies between the two adjacent cells. *)
Theorem limited_any_base_bounded : forall base c ax o' v u phi dt H w, periodic_field c -> (ax < gndim (ggrid (garray c)))%nat ->
  off_eq o' (offs ax (1 # 2) (goff (garray c))) -> nth_error v ax = Some u ->
  wf_garr (garray u) -> ggrid (garray u) = ggrid (garray c) -> off_eq (goff (garray u)) o' ->
  (forall r, (0 <= phi r <= 2)%R) ->
  answers base c o' v dt H -> tvd_limiter_transformation phi base c o' v dt = Ok w ->
  forall ix, inb (gshape (ggrid (garray c))) ix -> let a := pval (garray c) ix in let b := pval (garray c) (next ax ix) in
    between (upwind_cell c ax (get (gdata (garray u)) ix) ix) ((a + b) / 2) (H ix) -> between a b (get (gdata (garray w)) ix).
Proof. exact (@limited_any_base_bounded_lem). Qed.
Print Assumptions limited_any_base_bounded.

(** C78. Advection of a periodic scalar with a flux-limited version of any interpolation for the scalar (learned or not), as modular_advection builds it, is in flux form and conserves the scalar: the tendency is minus the net outflow of (limited value at the face) times (velocity linearly interpolated to the face), and it sums to zero, provided only that the interpolation answers on the faces. *)
Theorem limited_modular_advection : forall base f g dt0 v0 phi c v dt H, base g dt0 v0 = Ok f -> periodic_field c -> ggrid (garray c) = g -> (0 < gndim g)%nat ->
  periodic_vec g v -> homogeneous_vec v ->
  (forall av i, (i < gndim g)%nat -> (forall j, (j < gndim g)%nat -> exists u, nth_error av j = Some u /\ is_field (garray u) g (offs j (1 # 2) (goff (garray c))) (face_velocity c v j)) ->
     forall o', off_eq o' (offs i (1 # 2) (goff (garray c))) -> answers f c o' av dt (H i)) ->
  exists w, modular_advection (transformed_module base (tvd_limiter_transformation phi)) linear_module g dt0 v0 c v dt = Ok w /\
    is_field w g (goff (garray c))
      (fun ix => - outflow g (fun i jx => limited_to phi c i (face_velocity c v i jx) (H i (wrap (gshape g) jx)) jx * face_velocity c v i jx) ix)%R /\
    total (gdata w) = 0%R.
Proof. exact (@limited_modular_advection_lem). Qed.
Print Assumptions limited_modular_advection.

(** C78. The documentation presents the limiter as a way to constrain any (learned) interpolation to be TVD. It does not: there is an interpolation with weights 10 and -9 that sum to one for which the Van Leer limited value at a face exceeds every value of the field. *)
Theorem limiter_bounds_any_base_refuted : exists base c ax o' v u dt w ix, periodic_field c /\ (ax < gndim (ggrid (garray c)))%nat /\
  off_eq o' (offs ax (1 # 2) (goff (garray c))) /\ nth_error v ax = Some u /\ wf_garr (garray u) /\ ggrid (garray u) = ggrid (garray c) /\ off_eq (goff (garray u)) o' /\
  answers base c o' v dt (fun jx => 10 * pval (garray c) (next ax jx) + -9 * pval (garray c) jx)%R /\
  tvd_limiter_transformation van_leer_limiter base c o' v dt = Ok w /\ inb (gshape (ggrid (garray c))) ix /\
  forall jx, inb (gshape (ggrid (garray c))) jx -> (get (gdata (garray c)) jx < get (gdata (garray w)) ix)%R.
Proof. exact (@limiter_bounds_any_base_refuted_lem). Qed.
Print Assumptions limiter_bounds_any_base_refuted.

(** C78. Over a face without a jump the limiter does not fall back to the (common) value of the two cells: the code divides the upstream jump by one there, so an interpolation with weights 2 and -1 that sum to one brings in a new extremum. *)
Theorem limiter_flat_face_refuted : exists base c ax o' v u dt w ix, periodic_field c /\ (ax < gndim (ggrid (garray c)))%nat /\
  off_eq o' (offs ax (1 # 2) (goff (garray c))) /\ nth_error v ax = Some u /\ wf_garr (garray u) /\ ggrid (garray u) = ggrid (garray c) /\ off_eq (goff (garray u)) o' /\
  answers base c o' v dt (fun jx => 2 * pval (garray c) jx + -1 * pval (garray c) (prev ax jx))%R /\
  tvd_limiter_transformation van_leer_limiter base c o' v dt = Ok w /\ inb (gshape (ggrid (garray c))) ix /\ jump_at c ax ix = 0%R /\
  forall jx, inb (gshape (ggrid (garray c))) jx -> (get (gdata (garray c)) jx < get (gdata (garray w)) ix)%R.
Proof. exact (@limiter_flat_face_refuted_lem). Qed.
Print Assumptions limiter_flat_face_refuted.

(** The hypotheses are met by a concrete case. *)
Example limited_any_base_spec_ex : exists w, tvd_limiter_transformation van_leer_limiter (base_with (fun c jx => 7 * pval (garray c) jx + -6 * pval (garray c) (next 1 jx)))%R ipc [1%Q; (1 # 2)%Q] [ipu; ipu] 1%R = Ok w /\
  get (gdata (garray w)) [1; 0] = 4%R.
Proof. exact (@limited_any_base_spec_ex_lem). Qed.

(** The hypotheses are met by a concrete case. *)
Example limited_any_base_faces_ex : exists w, tvd_limiter_transformation van_leer_limiter (base_with (fun c jx => 1000))%R ipc [1%Q; (1 # 2)%Q] [ipu; ipu] 1%R = Ok w /\
  (jump_at ipc 0 [3; 0] = (-30)%R /\ jump_upstream ipc 0 (get (gdata (garray ipu)) [3; 0]) [3; 0] = 10%R) /\ get (gdata (garray w)) [3; 0] = 30%R.
Proof. exact (@limited_any_base_faces_ex_lem). Qed.

(** The hypotheses are met by a concrete case. *)
Example limited_any_base_bounded_ex : exists w, tvd_limiter_transformation van_leer_limiter (base_with (fun c jx => (3 * pval (garray c) jx + pval (garray c) (next 0 jx)) / 4))%R ipc [1%Q; (1 # 2)%Q] [ipu; ipu] 1%R = Ok w /\
  between (pval (garray ipc) [3; 0]) (pval (garray ipc) (next 0 [3; 0])) (get (gdata (garray w)) [3; 0]).
Proof. exact (@limited_any_base_bounded_ex_lem). Qed.

(** The hypotheses are met by a concrete case. *)
Example limited_modular_advection_ex : exists w, modular_advection (transformed_module (fun _ _ _ => Ok (base_with (fun c jx => 10 * pval (garray c) (next 0 jx) + -9 * pval (garray c) jx)))%R (tvd_limiter_transformation van_leer_limiter)) linear_module ipg 1%R ipv ipc ipv 1%R = Ok w /\ total (gdata w) = 0%R.
Proof. exact (@limited_modular_advection_ex_lem). Qed.
