(** Generated by tools/gen.py from CollocatedProps.v: property theorems only. *)
From Verif Require Import Prelude NdArr Grids_model Spec SpecCol Boundaries_model BoundariesPeriodic FD_model PRep FDProofs FDProps Pressure_model PressureProps Interp_model InterpProofs InterpProps Advection_model AdvectionProofs AdvectionProps ConvectProps Equations_model SpecNS EquationsProps EquationsMoreProps Collocated_model.
From Verif Require Import CollocatedProps.
Local Open Scope Z_scope.
Set Implicit Arguments.

(** C50. Collocated advect_linear of a periodic scalar by a velocity at the same points (any dimension) returns, at those points, minus the centred divergence of scalar times velocity, and its total is zero: the scheme conserves the scalar. *)
Theorem collocated_advect_spec : forall c v, periodic_field c -> (0 < gndim (ggrid (garray c)))%nat ->
  periodic_vec (ggrid (garray c)) v -> homogeneous_vec v -> collocated (goff (garray c)) v ->
  exists w, col_advect_linear c v = Ok w /\
    is_field w (ggrid (garray c)) (goff (garray c)) (fun ix => - centred_div (ggrid (garray c)) (fun a jx => pval (garray c) jx * vval v a jx) ix)%R /\
    total (gdata w) = 0%R.
Proof. exact (@collocated_advect_spec_lem). Qed.
Print Assumptions collocated_advect_spec.

(** C50. Collocated convect_linear of a periodic velocity (any dimension) returns for each component i, at the same points, minus the centred divergence of v_i times v; each component's total is zero (momentum is conserved), and the component agrees with advect_linear applied to it. *)
Theorem collocated_convect_spec : forall g o v, (0 < gndim g)%nat -> length o = gndim g -> periodic_vec g v -> homogeneous_vec v -> collocated o v ->
  exists l, col_convect_linear v = Ok l /\ length l = gndim g /\
    forall i u w, nth_error v i = Some u -> nth_error l i = Some w ->
      is_field w g o (fun ix => - centred_div g (fun a jx => vval v i jx * vval v a jx) ix)%R /\ total (gdata w) = 0%R /\
      exists w', col_advect_linear u v = Ok w' /\ forall ix, inb (gshape g) ix -> get (gdata w') ix = get (gdata w) ix.
Proof. exact (@collocated_convect_spec_lem). Qed.
Print Assumptions collocated_convect_spec.

(** C50. Collocated diffuse raises ValueError if an axis of the scalar is not periodic (judged by its lower side); on periodic scalars (any dimension, any viscosity) it returns viscosity times the centred divergence of the centred gradient, which totals to zero, and sum(c * diffuse(c)) = -viscosity * sum |centred gradient|^2, so a nonnegative viscosity never creates variance. *)
Theorem collocated_diffuse_spec : forall c nu, 
  ((exists a, (a < gndim (ggrid (garray c)))%nat /\ fst (nth a (btypes (gbc c)) (BCOther, BCOther)) <> Periodic) -> col_diffuse c nu = Err EValue) /\
  (periodic_field c -> (0 < gndim (ggrid (garray c)))%nat -> exists w, col_diffuse c nu = Ok w /\
    is_field w (ggrid (garray c)) (goff (garray c)) (fun ix => nu * centred_laplacian (ggrid (garray c)) (pval (garray c)) ix)%R /\
    total (gdata w) = 0%R /\
    (asum (gshape (ggrid (garray c))) (fun ix => pval (garray c) ix * get (gdata w) ix) =
      - nu * nsum (gndim (ggrid (garray c))) (fun a => asum (gshape (ggrid (garray c))) (fun ix => centred_difference (ggrid (garray c)) a (pval (garray c)) ix ^ 2)))%R /\
    ((0 <= nu)%R -> (asum (gshape (ggrid (garray c))) (fun ix => pval (garray c) ix * get (gdata w) ix) <= 0)%R)).
Proof. exact (@collocated_diffuse_spec_lem). Qed.
Print Assumptions collocated_diffuse_spec.

(** C50. Collocated projection, for every solver that returns at the velocity's points a field q whose centred Laplacian is the centred divergence of the velocity: it succeeds on every periodic collocated velocity (any dimension), keeps offsets and boundary conditions, subtracts exactly the centred gradient of q, the result has zero centred divergence in every cell, and its kinetic energy is that of v minus the sum of |grad q|^2: never larger. *)
Theorem collocated_projection : forall g o v solve q, (0 < gndim g)%nat -> length o = gndim g -> periodic_vec g v -> collocated o v ->
  (forall q0, periodic_field q0 -> ggrid (garray q0) = g -> solve v q0 = Ok q) -> wf_garr q -> ggrid q = g -> off_eq (goff q) o ->
  (forall ix, inb (gshape g) ix -> centred_laplacian g (pval q) ix = centred_div g (vval v) ix) ->
  exists v' d, col_projection solve v = Ok v' /\ periodic_vec g v' /\ collocated o v' /\ map gbc v' = map gbc v /\
    (forall i ix, (i < gndim g)%nat -> inb (gshape g) ix -> vval v' i ix = (vval v i ix - centred_difference g i (pval q) ix)%R) /\
    centered_divergence v' = Ok d /\ is_field d g o (fun _ => 0%R) /\
    (kinetic g (vval v') + nsum (gndim g) (fun a => asum (gshape g) (fun ix => centred_difference g a (pval q) ix ^ 2)) = kinetic g (vval v))%R /\
    (kinetic g (vval v') <= kinetic g (vval v))%R.
Proof. exact (@collocated_projection_lem). Qed.
Print Assumptions collocated_projection.

(** C50. Collocated solve_cg gives conjugate gradients the centred divergence of the velocity as right-hand side and an operator that raises ValueError if an axis of q0 is not periodic and otherwise is the centred divergence of the centred gradient; so if cg returns a field on which that operator takes the value of the right-hand side, the result satisfies the equation projection needs. *)
Theorem collocated_solve_cg : forall cg v q0,
  ((exists a, (a < gndim (ggrid (garray q0)))%nat /\ fst (nth a (btypes (gbc q0)) (BCOther, BCOther)) <> Periodic) -> forall a, col_laplacian_with_bcs q0 a = Err EValue) /\
  (forall g o, (0 < gndim g)%nat -> length o = gndim g -> periodic_vec g v -> collocated o v -> periodic_field q0 -> ggrid (garray q0) = g ->
    (forall rhs, centered_divergence v = Ok rhs -> exists x, cg (col_laplacian_with_bcs q0) rhs (garray q0) = Ok x /\ wf_garr x /\ ggrid x = g /\ off_eq (goff x) o /\
       forall y, col_laplacian_with_bcs q0 x = Ok y -> aeq (gdata y) (gdata rhs)) ->
    exists q, col_solve_cg cg v q0 = Ok q /\ wf_garr q /\ ggrid q = g /\ off_eq (goff q) o /\
      forall ix, inb (gshape g) ix -> centred_laplacian g (pval q) ix = centred_div g (vval v) ix).
Proof. exact (@collocated_solve_cg_lem). Qed.
Print Assumptions collocated_solve_cg.

(** The hypotheses are met by a concrete case. *)
Example collocated_advect_spec_ex : periodic_field c3c /\ (0 < gndim (ggrid (garray c3c)))%nat /\ periodic_vec (ggrid (garray c3c)) c3v /\ homogeneous_vec c3v /\ collocated (goff (garray c3c)) c3v /\
  centred_div c3g (fun a jx => pval (garray c3c) jx * vval c3v a jx)%R [0] = 5%R.
Proof. exact (@collocated_advect_spec_ex_lem). Qed.

(** The hypotheses are met by a concrete case. *)
Example collocated_convect_spec_ex : (0 < gndim c3g)%nat /\ length c3o = gndim c3g /\ periodic_vec c3g c3v /\ homogeneous_vec c3v /\ collocated c3o c3v /\
  centred_div c3g (fun a jx => vval c3v 0 jx * vval c3v a jx)%R [1] = (-18)%R.
Proof. exact (@collocated_convect_spec_ex_lem). Qed.

(** The hypotheses are met by a concrete case. *)
Example collocated_diffuse_spec_ex : periodic_field c3c /\ (0 < gndim (ggrid (garray c3c)))%nat /\ centred_laplacian c3g (pval (garray c3c)) [1] = (-2)%R /\
  exists c, (exists a, (a < gndim (ggrid (garray c)))%nat /\ fst (nth a (btypes (gbc c)) (BCOther, BCOther)) <> Periodic).
Proof. exact (@collocated_diffuse_spec_ex_lem). Qed.

(** The hypotheses are met by a concrete case. *)
Example collocated_projection_ex : exists q, (0 < gndim c3g)%nat /\ length c3o = gndim c3g /\ periodic_vec c3g c3v /\ collocated c3o c3v /\
  (forall q0, periodic_field q0 -> ggrid (garray q0) = c3g -> c3_solve c3v q0 = Ok q) /\ wf_garr q /\ ggrid q = c3g /\ off_eq (goff q) c3o /\
  (forall ix, inb (gshape c3g) ix -> centred_laplacian c3g (pval q) ix = centred_div c3g (vval c3v) ix) /\ centred_div c3g (vval c3v) [0] = 1%R.
Proof. exact (@collocated_projection_ex_lem). Qed.

(** The hypotheses are met by a concrete case. *)
Example collocated_solve_cg_ex : exists x, (0 < gndim c3g)%nat /\ length c3o = gndim c3g /\ periodic_vec c3g c3v /\ collocated c3o c3v /\ periodic_field c3c /\ ggrid (garray c3c) = c3g /\
  c3_solve c3v c3c = Ok x /\ wf_garr x /\ ggrid x = c3g /\ off_eq (goff x) c3o /\
  forall y, col_laplacian_with_bcs c3c x = Ok y -> forall d, centered_divergence c3v = Ok d -> aeq (gdata y) (gdata d).
Proof. exact (@collocated_solve_cg_ex_lem). Qed.
