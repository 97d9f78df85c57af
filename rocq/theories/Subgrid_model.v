(** * Model of jax_cfd/base/subgrid_models.py

    A GridArrayTensor is a list of rows of arrays. *)
From Verif Require Import Prelude NdArr Grids_model Boundaries_model FD_model Interp_model Advection_model TimeStep_model Equations_model Forcings_model.
Set Implicit Arguments.
Local Open Scope R_scope.

Definition tensor := list (list garr).

(** grids.py:489-496 [unique_boundary_conditions] *)
Definition unique_boundary_conditions (v : list gvar) : result bcs :=
  match v with
  | [] => Err EBC
  | u :: r => if forallb (fun w => if bcs_eq_dec (gbc u) (gbc w) then true else false) r then Ok (gbc u) else Err EBC
  end.

(** Sum of a nonempty sequence of arrays, first to last (what np.dot and np.trace do with objects). *)
Definition obj_sum (l : list garr) : result garr :=
  match l with [] => Err EType | a :: r => foldM ga_add a r end.

(** subgrid_models.py:40-98 [smagorinsky_viscosity].  [interp c offset v] stands for interpolate_fn with its time step.
    The closure [wrapped_interp_fn] (79-80) reads [bc] when called, that is after 83 has replaced it by periodic boundary
    conditions.  The off-diagonal entries of [centered_s_ij.dot(centered_s_ij)], which are discarded by np.trace, are not
    computed.  [cutoff] is [Rpower], right for a positive product of steps. *)
Definition smagorinsky_viscosity (interp : gvar -> list Q -> list gvar -> result gvar) (cs : R) (s_ij : tensor) (v : list gvar) : result tensor :=
  if negb (has_all_periodic v) then Err EValue
  else
    let* _ := unique_boundary_conditions v in
    let* g := consistent_grid (concat s_ij ++ map garray v) in
    let bc := periodic_bc (gndim g) in
    let wrapped_interp_fn := fun c offset => let* u := mk_gvar c bc in let* w := interp u offset v in Ok (garray w) in
    let* centered := mapM (mapM (fun x => wrapped_interp_fn x (cell_center g))) s_ij in
    let cutoff := Rpower (fold_right Rmult 1 (gstep g)) (1 / INR (gndim g)) in
    let entry := fun i k => let* row := getM centered i in getM row k in
    let* diagonal := mapM (fun i => let* products := mapM (fun k => let* a := entry i k in let* b := entry k i in ga_mul a b) (seq 0 (length centered)) in
                                    obj_sum products) (seq 0 (length centered)) in
    let* trace := obj_sum diagonal in
    let* trace2 := ga_scale 2 trace in
    let* root := array_ufunc (raw1 sqrt) [OGA trace2] in
    let* viscosity := ga_scale ((cs * cutoff) ^ 2) root in
    mapM (mapM (fun s => let* w := wrapped_interp_fn viscosity (goff s) in Ok (mkga (gdata w) (goff s) (ggrid s)))) s_ij.

(** subgrid_models.py:122-127, the strain rate tensor of [evm_model] *)
Definition strain_rate (d : nat) (v : list gvar) : result tensor :=
  mapM (fun i => mapM (fun j =>
    let* vi := getM v i in let* a := forward_difference vi j in
    let* vj := getM v j in let* b := forward_difference vj i in
    let* s := ga_add a b in ga_scale (1 / 2) s) (seq 0 d)) (seq 0 d).
(** subgrid_models.py:129, [jax.tree.map(lambda x, y: -2. * x * y, viscosity, s_ij)]: leaves are the data arrays, and the
    trees (shape of the tensor, offsets, grids) must agree. *)
Definition stress (viscosity s_ij : tensor) : result tensor :=
  if (length viscosity =? length s_ij)%nat && forallb (fun rr => same_trees (fst rr) (snd rr)) (combine viscosity s_ij)
  then mapM (fun rr => mapM (fun xy => let* d := raw2 (fun x y => -2 * x * y) [gdata (fst xy); gdata (snd xy)] in
                                       Ok (mkga d (goff (fst xy)) (ggrid (fst xy)))) (combine (fst rr) (snd rr)))
            (combine viscosity s_ij)
  else Err EValue.
(** subgrid_models.py:101-134 [evm_model] *)
Definition evm_model (viscosity_fn : tensor -> list gvar -> result tensor) (v : list gvar) : result (list garr) :=
  if negb (has_all_periodic v) then Err EValue
  else
    let* g := consistent_grid (map garray v) in
    let bc := periodic_bc (gndim g) in
    let* s_ij := strain_rate (gndim g) v in
    let* viscosity := viscosity_fn s_ij v in
    let* tau := stress viscosity s_ij in
    mapM (fun i => let* row := getM tau i in
                   let* t := mapM (fun a => mk_gvar a bc) row in
                   let* d := divergence t in ga_neg d) (seq 0 (gndim g)).

(** subgrid_models.py:172-176, [linear_op] of [implicit_evm_solve_with_diffusion] *)
Definition evm_linear_op (b : bcs) (viscosity dt : R) (configured_evm_model : list gvar -> result (list garr)) (velocity : list garr) : result (list garr) :=
  let* v_var := mapM (fun u => mk_gvar u b) velocity in
  let* acceleration := configured_evm_model v_var in
  let* laplacians := mapM laplacian v_var in
  if (length acceleration =? length laplacians)%nat && (length velocity =? length laplacians)%nat then
    mapM (fun ual => let '(u, (a, l)) := ual in
                     let* s := ga_scale viscosity l in let* t := ga_add a s in let* r := ga_scale dt t in ga_sub u r)
         (combine velocity (combine acceleration laplacians))
  else Err EShape.
(** subgrid_models.py:138-185 [implicit_evm_solve_with_diffusion]; [cg] as in diffusion.py. *)
Definition implicit_evm_solve_with_diffusion (cg : (list garr -> result (list garr)) -> list garr -> result (list garr))
  (configured_evm_model : list gvar -> result (list garr)) (v : list gvar) (viscosity dt : R) : result (list gvar) :=
  if negb (has_all_periodic v) then Err EValue
  else
    let* b := unique_boundary_conditions v in
    let* v_prime := cg (evm_linear_op b viscosity dt configured_evm_model) (map garray v) in
    mapM (fun uu => mk_gvar (fst uu) (gbc (snd uu))) (combine v_prime v).

(** [interpolation.linear] as an interpolation function of the models above. *)
Definition linear_fn (c : gvar) (offset : list Q) (v : list gvar) : result gvar := linear_interp c offset.
(** subgrid_models.py:188-214 [explicit_smagorinsky_navier_stokes], with the arguments semi_implicit_navier_stokes gets *)
Definition explicit_smagorinsky_navier_stokes (t : tableau) (density : R) (viscosity : option R) (dt cs : R)
  (convect : list gvar -> result (list garr)) (diffuse : gvar -> R -> result garr)
  (pressure_solve : list gvar -> gvar -> bcs -> result garr)
  (forcing : option (list gvar -> result (list garr))) : list gvar -> result (list gvar) :=
  let smagorinsky_acceleration := evm_model (smagorinsky_viscosity linear_fn cs) in
  let forcing := match forcing with
                 | None => smagorinsky_acceleration
                 | Some f => sum_forcings [f; smagorinsky_acceleration]
                 end in
  semi_implicit_navier_stokes t density viscosity dt convect diffuse pressure_solve (Some forcing).
(** subgrid_models.py:217-243 [implicit_smagorinsky_navier_stokes] *)
Definition implicit_smagorinsky_navier_stokes (cg : (list garr -> result (list garr)) -> list garr -> result (list garr))
  (density viscosity dt cs : R) (convect : list gvar -> result (list garr))
  (pressure_solve : list gvar -> gvar -> bcs -> result garr)
  (forcing : option (list gvar -> result (list garr))) : list gvar -> result (list gvar) :=
  implicit_diffusion_navier_stokes density viscosity dt convect
    (implicit_evm_solve_with_diffusion cg (evm_model (smagorinsky_viscosity linear_fn cs))) pressure_solve forcing.
