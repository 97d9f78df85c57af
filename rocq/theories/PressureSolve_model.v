(** * Model of the solvers of jax_cfd/base/pressure.py *)
From Verif Require Import Prelude NdArr Grids_model Boundaries_model FD_model LinAlg Cplx FastDiag_model Laplacian_model Pressure_model.
Set Implicit Arguments.

(** [jnp.mean] of a whole array *)
Definition amean (a : arr R) : R := (total a / INR (asize (shp a)))%R.

(** pressure.py:42-64 [_rhs_transform] *)
Definition pressure_rhs_transform (u : garr) (b : bcs) : arr R :=
  fold_left (fun d ax => if isNeu (fst (btype b ax)) && isNeu (snd (btype b ax))
                         then let m := amean d in amap (fun x => x - m)%R d else d)
            (seq 0 (gndim (ggrid u))) (gdata u).

(** pressure.py:115-157 [solve_fast_diag]; [q0] is unused.  [tpu], [eigh], [cutoff] as in the model of
    fast_diagonalization.py ([cutoff] is the default 10 * machine epsilon there). *)
Definition pressure_solve_fast_diag (tpu : bool) (eigh : arr R -> arr R * arr R) (cutoff : R)
  (v : list gvar) (pbc : option bcs) (implementation : option impl) : result garr :=
  let* pbc := match pbc with Some b => Ok b | None => pressure_bc_from_velocity v end in
  let circulant := has_all_periodic v in
  let implementation := if circulant then implementation else Some Matmul in
  let* rhs := divergence v in
  let* laplacians := laplacian_matrix_w_boundaries (ggrid rhs) (goff rhs) pbc in
  let rhs_transformed := pressure_rhs_transform rhs pbc in
  let* pinv := pseudoinverse tpu eigh laplacians true circulant implementation cutoff in
  let* d := pinv rhs_transformed in
  Ok (mkga d (goff rhs) (ggrid rhs)).

(** pressure.py:160-179 [solve_fast_diag_channel_flow] *)
Definition solve_fast_diag_channel_flow (tpu : bool) (eigh : arr R -> arr R * arr R) (cutoff : R)
  (v : list gvar) (pbc : option bcs) : result garr :=
  let* pbc := match pbc with Some b => Ok b | None => pressure_bc_from_velocity v end in
  pressure_solve_fast_diag tpu eigh cutoff v (Some pbc) (Some Matmul).

(** pressure.py:67-112 [solve_cg]; [cg] stands for jax.scipy.sparse.linalg.cg (operator, right-hand side,
    initial guess), tolerances and iteration limit included. *)
Definition pressure_solve_cg (cg : (garr -> result garr) -> garr -> garr -> result garr)
  (v : list gvar) (q0 : gvar) (pbc : option bcs) : result garr :=
  let* rhs := divergence v in
  let* pbc := match pbc with Some b => Ok b | None => pressure_bc_from_velocity v end in
  cg (fun a => let* q := impose_bc pbc a in laplacian q) rhs (garray q0).
