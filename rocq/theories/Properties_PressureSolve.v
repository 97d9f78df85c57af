(** Generated by tools/gen.py from PressureSolveProps.v: property theorems only. *)
From Verif Require Import Prelude NdArr Grids_model Spec SpecLin LinAlg Cplx Boundaries_model FD_model PRep FDProofs FDProps WallBC WallBCProps ImposeProps WallFD Pressure_model PressureProps WallFDProps FastDiag_model FastDiagProofs FastDiagProps FastDiagCalc SpecDiag FastDiagImplProps Laplacian_model LaplacianProofs LaplacianProps LapSign Poincare PressureSolve_model ProjectionProps.
From Verif Require Import PressureSolveProps.
Local Open Scope Z_scope.
Set Implicit Arguments.

(** C56. solve_fast_diag returns the pressure correction: for every velocity in a box with periodic axes or walls (any dimension, at least 3 cells per axis), every implementation that is usable and every cutoff with cutoff * (axis length)^2 < 2, the laplacian of its result under the inferred pressure conditions is the divergence of the velocity minus its mean. *)
Theorem fast_diag_pressure_solves_poisson : forall tpu eigh cutoff imp g per v pb Ls,
  (0 < gndim g)%nat -> wfg g -> box_velocity g per v ->
  (forall a, (a < gndim g)%nat -> (3 <= nth a (gshape g) 0)%nat /\ (cutoff * (INR (nth a (gshape g) 0%nat) * hstep g a) ^ 2 < 2)%R) ->
  (0 <= cutoff)%R -> pressure_bc_from_velocity v = Ok pb ->
  laplacian_matrix_w_boundaries g (repeat (1 # 2)%Q (gndim g)) pb = Ok Ls ->
  implementation_ready eigh Ls (forallb per (seq 0 (gndim g))) imp ->
  exists dv q lq, divergence v = Ok dv /\
    pressure_solve_fast_diag tpu eigh cutoff v (Some pb) imp = Ok q /\ pressure_solve_fast_diag tpu eigh cutoff v None imp = Ok q /\
    wf_garr q /\ ggrid q = g /\ off_eq (goff q) (repeat (1 # 2)%Q (gndim g)) /\ laplacian (mkgv q pb) = Ok lq /\
    forall ix, inb (gshape g) ix -> get (gdata lq) ix = (get (gdata dv) ix - total (gdata dv) / INR (asize (gshape g)))%R.
Proof. exact (@fast_diag_pressure_solves_poisson_lem). Qed.
Print Assumptions fast_diag_pressure_solves_poisson.

(** The hypotheses are met by a concrete case. *)
Example fast_diag_pressure_solves_poisson_ex : exists Ls,
  (0 < gndim w3g)%nat /\ wfg w3g /\ box_velocity w3g (fun _ => false) w3v /\
  (forall a, (a < gndim w3g)%nat -> (3 <= nth a (gshape w3g) 0)%nat /\ (1 / 1000 * (INR (nth a (gshape w3g) 0%nat) * hstep w3g a) ^ 2 < 2)%R) /\
  pressure_bc_from_velocity w3v = Ok w3pb /\
  laplacian_matrix_w_boundaries w3g (repeat (1 # 2)%Q (gndim w3g)) w3pb = Ok Ls /\
  implementation_ready w3eigh Ls (forallb (fun _ => false) (seq 0 (gndim w3g))) None.
Proof. exact (@fast_diag_pressure_solves_poisson_ex_lem). Qed.

(** C56. Projection with solve_fast_diag succeeds in every such box; the projected velocity keeps grid, offsets, boundary conditions and wall values, and its divergence is the same constant (the mean of the divergence of v) in every cell; it is zero in every cell when the wall values of each normal component balance (in particular without walls or with impermeable ones). *)
Theorem projection_with_fast_diag : forall tpu eigh cutoff imp g per v pb Ls,
  (0 < gndim g)%nat -> wfg g -> box_velocity g per v ->
  (forall a, (a < gndim g)%nat -> (3 <= nth a (gshape g) 0)%nat /\ (cutoff * (INR (nth a (gshape g) 0%nat) * hstep g a) ^ 2 < 2)%R) ->
  (0 <= cutoff)%R -> pressure_bc_from_velocity v = Ok pb ->
  laplacian_matrix_w_boundaries g (repeat (1 # 2)%Q (gndim g)) pb = Ok Ls ->
  implementation_ready eigh Ls (forallb per (seq 0 (gndim g))) imp ->
  exists dv v' w, divergence v = Ok dv /\
    projection (fun v _ b => pressure_solve_fast_diag tpu eigh cutoff v (Some b) imp) v = Ok v' /\ box_velocity g per v' /\ map gbc v' = map gbc v /\
    divergence v' = Ok w /\
    (forall ix, inb (gshape g) ix -> get (gdata w) ix = (total (gdata dv) / INR (asize (gshape g)))%R) /\
    ((forall i u lo hi, per i = false -> nth_error v i = Some u -> nth_error (bvals (gbc u)) i = Some (Some lo, Some hi) -> lo = hi) ->
     forall ix, inb (gshape g) ix -> get (gdata w) ix = 0%R).
Proof. exact (@projection_with_fast_diag_lem). Qed.
Print Assumptions projection_with_fast_diag.

(** The hypotheses are met by a concrete case. *)
Example projection_with_fast_diag_ex : forall eigh, exists pb Ls,
  (0 < gndim p34g)%nat /\ wfg p34g /\ box_velocity p34g (fun _ => true) p34v /\
  (forall a, (a < gndim p34g)%nat -> (3 <= nth a (gshape p34g) 0)%nat /\ (1 / 1000 * (INR (nth a (gshape p34g) 0%nat) * hstep p34g a) ^ 2 < 2)%R) /\
  pressure_bc_from_velocity p34v = Ok pb /\
  laplacian_matrix_w_boundaries p34g (repeat (1 # 2)%Q (gndim p34g)) pb = Ok Ls /\
  implementation_ready eigh Ls (forallb (fun _ => true) (seq 0 (gndim p34g))) (Some Rfft) /\
  implementation_ready eigh Ls (forallb (fun _ => true) (seq 0 (gndim p34g))) (Some Fft).
Proof. exact (@projection_with_fast_diag_ex_lem). Qed.

(** C57. With solve_fast_diag as solver and balanced wall values, projecting an already projected velocity changes nothing: projection is idempotent. *)
Theorem fast_diag_projection_idempotent : forall tpu eigh cutoff imp g per v pb Ls,
  (0 < gndim g)%nat -> wfg g -> box_velocity g per v ->
  (forall a, (a < gndim g)%nat -> (3 <= nth a (gshape g) 0)%nat /\ (cutoff * (INR (nth a (gshape g) 0%nat) * hstep g a) ^ 2 < 2)%R) ->
  (0 <= cutoff)%R -> pressure_bc_from_velocity v = Ok pb ->
  laplacian_matrix_w_boundaries g (repeat (1 # 2)%Q (gndim g)) pb = Ok Ls ->
  implementation_ready eigh Ls (forallb per (seq 0 (gndim g))) imp ->
  (forall i u lo hi, per i = false -> nth_error v i = Some u -> nth_error (bvals (gbc u)) i = Some (Some lo, Some hi) -> lo = hi) ->
  let solve := fun v (_ : gvar) b => pressure_solve_fast_diag tpu eigh cutoff v (Some b) imp in
  exists v' v'', projection solve v = Ok v' /\ projection solve v' = Ok v'' /\
    Forall2 (fun u u' => same_field (garray u') (garray u) /\ gbc u' = gbc u) v' v''.
Proof. exact (@fast_diag_projection_idempotent_lem). Qed.
Print Assumptions fast_diag_projection_idempotent.

(** The hypotheses are met by a concrete case. *)
Example fast_diag_projection_idempotent_ex : forall eigh, exists pb Ls,
  (0 < gndim p34g)%nat /\ wfg p34g /\ box_velocity p34g (fun _ => true) p34v /\
  (forall a, (a < gndim p34g)%nat -> (3 <= nth a (gshape p34g) 0)%nat /\ (1 / 1000 * (INR (nth a (gshape p34g) 0%nat) * hstep p34g a) ^ 2 < 2)%R) /\
  pressure_bc_from_velocity p34v = Ok pb /\
  laplacian_matrix_w_boundaries p34g (repeat (1 # 2)%Q (gndim p34g)) pb = Ok Ls /\
  implementation_ready eigh Ls (forallb (fun _ => true) (seq 0 (gndim p34g))) (Some Rfft).
Proof. exact (@fast_diag_projection_idempotent_ex_lem). Qed.

(** C56. solve_fast_diag_channel_flow returns what solve_fast_diag returns with the matmul implementation, with the pressure boundary conditions given or inferred from the velocity. *)
Theorem channel_flow_solver_is_matmul : forall tpu eigh cutoff v pb, pressure_bc_from_velocity v = Ok pb ->
  solve_fast_diag_channel_flow tpu eigh cutoff v None = pressure_solve_fast_diag tpu eigh cutoff v None (Some Matmul) /\
  solve_fast_diag_channel_flow tpu eigh cutoff v (Some pb) = pressure_solve_fast_diag tpu eigh cutoff v None (Some Matmul).
Proof. exact (@channel_flow_solver_is_matmul_lem). Qed.
Print Assumptions channel_flow_solver_is_matmul.

(** The hypotheses are met by a concrete case. *)
Example channel_flow_solver_is_matmul_ex : pressure_bc_from_velocity w3v = Ok w3pb.
Proof. exact (@channel_flow_solver_is_matmul_ex_lem). Qed.

(** C57. The pressure correction is unique up to a constant: two cell-centred fields with the same laplacian under pressure boundary conditions (periodic or zero-Neumann axes) differ by a constant. *)
Theorem pressure_unique_up_to_constant : forall g per v pb q1 q2 l1 l2,
  (0 < gndim g)%nat -> wfg g -> box_velocity g per v -> pressure_bc_from_velocity v = Ok pb ->
  wf_garr q1 -> ggrid q1 = g -> off_eq (goff q1) (repeat (1 # 2)%Q (gndim g)) ->
  wf_garr q2 -> ggrid q2 = g -> off_eq (goff q2) (repeat (1 # 2)%Q (gndim g)) ->
  laplacian (mkgv q1 pb) = Ok l1 -> laplacian (mkgv q2 pb) = Ok l2 ->
  (forall ix, inb (gshape g) ix -> get (gdata l1) ix = get (gdata l2) ix) ->
  exists c, forall ix, inb (gshape g) ix -> get (gdata q1) ix = (get (gdata q2) ix + c)%R.
Proof. exact (@pressure_unique_up_to_constant_lem). Qed.
Print Assumptions pressure_unique_up_to_constant.

(** The hypotheses are met by a concrete case. *)
Example pressure_unique_up_to_constant_ex :
  (0 < gndim prg)%nat /\ wfg prg /\ box_velocity prg chper chv /\ pressure_bc_from_velocity chv = Ok chpb /\
  wf_garr chq /\ off_eq (goff chq) (repeat (1 # 2)%Q (gndim prg)) /\ exists l, laplacian (mkgv chq chpb) = Ok l.
Proof. exact (@pressure_unique_up_to_constant_ex_lem). Qed.

(** C56. solve_cg: if the conjugate-gradient routine returns a cell-centred field that solves the linear system it was given (operator applied to the field = right-hand side), then projection with solve_cg gives a velocity with zero divergence in every cell and unchanged boundary conditions. *)
Theorem projection_with_cg : forall cg g per v pb q dv,
  (0 < gndim g)%nat -> wfg g -> box_velocity g per v -> pressure_bc_from_velocity v = Ok pb -> divergence v = Ok dv ->
  wf_garr q -> ggrid q = g -> off_eq (goff q) (repeat (1 # 2)%Q (gndim g)) ->
  (forall A x0, (forall u, A u = (let* r := impose_bc pb u in laplacian r)) -> cg A dv x0 = Ok q /\
     exists y, A q = Ok y /\ forall ix, inb (gshape g) ix -> get (gdata y) ix = get (gdata dv) ix) ->
  exists v' w, projection (fun v q0 b => pressure_solve_cg cg v q0 (Some b)) v = Ok v' /\ box_velocity g per v' /\ map gbc v' = map gbc v /\
    divergence v' = Ok w /\ forall ix, inb (gshape g) ix -> get (gdata w) ix = 0%R.
Proof. exact (@projection_with_cg_lem). Qed.
Print Assumptions projection_with_cg.

(** The hypotheses are met by a concrete case. *)
Example projection_with_cg_ex : exists dv,
  (0 < gndim prg)%nat /\ wfg prg /\ box_velocity prg chper chv /\ pressure_bc_from_velocity chv = Ok chpb /\ divergence chv = Ok dv /\
  wf_garr chq /\ off_eq (goff chq) (repeat (1 # 2)%Q (gndim prg)) /\
  forall A (x0 : garr), (forall u, A u = (let* r := impose_bc chpb u in laplacian r)) -> (fun (A : garr -> result garr) (b x0 : garr) => Ok chq) A dv x0 = Ok chq /\
     exists y, A chq = Ok y /\ forall ix, inb (gshape prg) ix -> get (gdata y) ix = get (gdata dv) ix.
Proof. exact (@projection_with_cg_ex_lem). Qed.
