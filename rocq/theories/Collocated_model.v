(** * Model of jax_cfd/collocated: advection.py, diffusion.py, pressure.py, equations.py *)
From Verif Require Import Prelude NdArr Grids_model Boundaries_model FD_model Advection_model Equations_model.
Set Implicit Arguments.

(** collocated/advection.py:29-40 [advect_linear] *)
Definition col_advect_linear (c : gvar) (v : list gvar) : result garr :=
  let* flux_bc := mapM (fun iu => advection_flux_bc (snd iu) c (fst iu)) (enumerate v) in
  let* flux := mapM (fun axis => let* b := getM flux_bc axis in
                                 let* u := getM v axis in
                                 let* p := ga_mul (garray c) (garray u) in
                                 impose_bc b p) (seq 0 (gndim (ggrid (garray c)))) in
  let* d := centered_divergence flux in
  ga_neg d.

(** collocated/advection.py:43-67 [_velocities_to_flux]; [flux] is the list of the rows built so far. *)
Definition col_flux_entry (v : list gvar) (flux : list (list gvar)) (i j : nat) : result gvar :=
  if (i <=? j)%nat then
    let* vj := getM v j in let* vi := getM v i in
    let* b := advection_flux_bc vj vi j in
    let* p := ga_mul (garray vi) (garray vj) in
    impose_bc b p
  else let* rj := getM flux j in getM rj i.
Definition col_velocities_to_flux (v : list gvar) : result (list (list gvar)) :=
  foldM (fun flux i => let* row := mapM (col_flux_entry v flux i) (seq 0 (length v)) in Ok (flux ++ [row]))
        [] (seq 0 (length v)).

(** collocated/advection.py:70-81 [convect_linear] *)
Definition col_convect_linear (v : list gvar) : result (list garr) :=
  let* fluxes := col_velocities_to_flux v in
  mapM (fun f => let* d := centered_divergence f in ga_neg d) fluxes.

(** [fd.central_difference(u, axis=None)] made into variables with the boundary conditions [b], then the
    centred divergence: the common part of diffusion.diffuse and pressure.solve_cg. *)
Definition col_gradient : gvar -> result (list garr) := all_axes central_difference.
Definition col_laplacian (u : gvar) (b : bcs) : result garr :=
  let* gradient := col_gradient u in
  let* gradient := mapM (fun a => mk_gvar a b) gradient in
  centered_divergence gradient.

(** collocated/diffusion.py:28-34 [diffuse] *)
Definition col_diffuse (c : gvar) (nu : R) : result garr :=
  if negb (has_all_periodic [c]) then Err EValue
  else let* l := col_laplacian c (gbc c) in ga_scale nu l.

(** collocated/pressure.py:40-83 [solve_cg]; [cg operator rhs x0] stands for jax.scipy.sparse.linalg.cg. *)
Definition col_laplacian_with_bcs (q0 : gvar) (a : garr) : result garr :=
  if negb (has_all_periodic [q0]) then Err EValue
  else let* variable := mk_gvar a (gbc q0) in col_laplacian variable (gbc q0).
Definition col_solve_cg (cg : (garr -> result garr) -> garr -> garr -> result garr) (v : list gvar) (q0 : gvar) : result garr :=
  let* rhs := centered_divergence v in
  cg (col_laplacian_with_bcs q0) rhs (garray q0).

(** collocated/pressure.py:86-102 [projection] *)
Definition col_projection (solve : list gvar -> gvar -> result garr) (v : list gvar) : result (list gvar) :=
  let* g := consistent_grid (map garray v) in
  let* pressure_bc := pressure_bc_from_velocity v in
  let* q0 := mk_gvar (mkga (afull (gshape g) 0%R) (cell_center g) g) pressure_bc in
  let* q := solve v q0 in
  let* q := mk_gvar q pressure_bc in
  let* q_grad := col_gradient q in
  mapM (fun uq => let* d := ga_sub (garray (fst uq)) (snd uq) in mk_gvar d (gbc (fst uq))) (combine v q_grad).

(** collocated/equations.py:41-85 [semi_implicit_navier_stokes] *)
Definition col_navier_stokes (density : R) (viscosity : option R) (dt : R)
  (convect : list gvar -> result (list garr)) (diffuse : gvar -> R -> result garr)
  (pressure_solve : list gvar -> gvar -> result garr)
  (forcing : option (list gvar -> result (list garr))) (v : list gvar) : result (list gvar) :=
  let* convection := convect v in
  let* diffusion_ := match viscosity with
                     | None => Ok []
                     | Some nu => let* d := mapM (fun u => let* k := py_div nu density in diffuse u k) v in Ok [d]
                     end in
  let* force := match forcing with
                | None => Ok []
                | Some f => let* fv := f v in
                            let* fd := mapM (fun a => ga_div_scalar a density) fv in Ok [fd]
                end in
  let* dvdt := sum_fields ([convection] ++ diffusion_ ++ force) in
  let* v := mapM (fun ud => let* t := array_ufunc (raw2 Rmult) [OGA (snd ud); OScalar dt] in
                            let* s := ga_add (garray (fst ud)) t in
                            mk_gvar s (gbc (fst ud))) (combine v dvdt) in
  col_projection pressure_solve v.
