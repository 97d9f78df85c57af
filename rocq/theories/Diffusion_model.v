(** * Model of jax_cfd/base/diffusion.py *)
From Verif Require Import Prelude NdArr Grids_model Boundaries_model FD_model LinAlg Cplx FastDiag_model Laplacian_model.
Set Implicit Arguments.

(** diffusion.py:35-37 [diffuse] *)
Definition diffuse (c : gvar) (nu : R) : result garr :=
  let* l := laplacian c in ga_scale nu l.

(** [min] of a sequence; of an empty one it raises ValueError. *)
Definition list_min (l : list R) : result R :=
  match l with [] => Err EValue | x :: l' => Ok (fold_left Rmin l' x) end.
(** diffusion.py:40-57 [stable_time_step]; [None] stands for float('inf'). *)
Definition stable_time_step (viscosity : R) (g : grid) : result (option R) :=
  if Req_EM_T viscosity 0 then Ok None
  else let* dx := list_min (gstep g) in
       Ok (Some (dx ^ 2 / (viscosity * 2 ^ gndim g))%R).

(** [y\[0\]] of an array; indexing a 0-d array raises. *)
Definition first_row (y : arr R) : result (arr R) :=
  match shp y with [] => Err EIndex | _ :: s => Ok (mkarr s (fun ix => get y (0%Z :: ix))) end.
(** [jnp.apply_along_axis(lambda line: line - part, ax, d)] for a 1-d [part]: lengths must agree, or one be 1. *)
Definition subtract_along (ax : nat) (d part : arr R) : result (arr R) :=
  let n := nth ax (shp d) 0%nat in
  let m := nth 0 (shp part) 0%nat in
  if (n =? m)%nat then Ok (mkarr (shp d) (fun ix => get d ix - get part [nth ax ix 0%Z])%R)
  else if (m =? 1)%nat then Ok (mkarr (shp d) (fun ix => get d ix - get part [0%Z])%R)
  else if (n =? 1)%nat then Ok (mkarr (upd ax m (shp d)) (fun ix => get d (upd ax 0%Z ix) - get part [nth ax ix 0%Z])%R)
  else Err EShape.
(** diffusion.py:60-100 [_subtract_linear_part_dirichlet].  The row [y] of the mesh is 1-d only on 2-d grids:
    on 1-d grids it is 0-d and reading its shape raises IndexError; on grids with more axes the subtraction
    changes the rank of the data and the caller raises (here: [EShape] at once). *)
Definition subtract_linear_part_dirichlet (c_data : arr R) (g : grid) (axis : nat) (offset : list Q)
  (vals : R * R) : result (arr R) :=
  let '(lower_value, upper_value) := vals in
  let* mesh := grid_mesh g (Some offset) in
  let* y := match nth_error mesh axis with Some m => first_row m | None => Err EIndex end in
  let dom := nth axis (gdomain g) (0%R, 0%R) in
  let* one_d_grid := grid_init [nth axis (gshape g) 0%nat] StepNone (DomSeq [[fst dom; snd dom]]) in
  match shp y with
  | [] => Err EIndex
  | [_] =>
      let* y := trim_boundary (dirichlet_bc 1 None) (mkga y [nth axis offset 0%Q] one_d_grid) in
      let domain_length := (snd dom - fst dom)%R in
      let domain_start := fst dom in
      let linear_part := amap (fun x => lower_value + (upper_value - lower_value) * (x - domain_start) / domain_length)%R (gdata y) in
      subtract_along axis c_data linear_part
  | _ => Err EShape
  end.

(** Truth value of a boundary value: None and 0 are false. *)
Definition truthy (o : option R) : bool :=
  match o with Some x => if Req_EM_T x 0 then false else true | None => false end.
(** diffusion.py:103-134 [_rhs_transform].  Arithmetic on a value None raises TypeError. *)
Definition diffusion_rhs_side (u : garr) (b : bcs) (axis : nat) (upper : bool) (u_data : arr R) : result (arr R) :=
  let t := if upper then snd (btype b axis) else fst (btype b axis) in
  if isDir t then
    match (if upper then snd (bval b axis) else fst (bval b axis)) with
    | None => Err EType
    | Some x => subtract_linear_part_dirichlet u_data (ggrid u) axis (goff u)
                  (if upper then (0, x)%R else (x, 0)%R)
    end
  else if isNeu t then
    if truthy (fst (bval b axis)) || truthy (snd (bval b axis)) then Err ENotImpl else Ok u_data
  else Ok u_data.
Definition diffusion_rhs_transform (u : garr) (b : bcs) : result (arr R) :=
  foldM (fun d axis => let* d := diffusion_rhs_side u b axis false d in diffusion_rhs_side u b axis true d)
        (gdata u) (seq 0 (gndim (ggrid u))).

(** diffusion.py:137-163 [solve_cg]; [cg] stands for jax.scipy.sparse.linalg.cg (operator, right-hand side,
    initial guess), tolerances and iteration limit included. *)
Definition diffusion_op (b : bcs) (c : R) (u_new : garr) : result garr :=
  let* u := mk_gvar u_new b in
  let* l := laplacian u in
  let* s := ga_scale c l in
  ga_sub (garray u) s.
Definition diffusion_solve_cg (cg : (garr -> result garr) -> garr -> garr -> result garr)
  (v : list gvar) (nu dt : R) : result (list gvar) :=
  if negb (has_all_periodic v) then Err EValue
  else mapM (fun u => let* x := cg (diffusion_op (gbc u) (dt * nu)%R) (garray u) (garray u) in mk_gvar x (gbc u)) v.

(** diffusion.py:177-179, [func] of [solve_fast_diag], on real and on complex arguments *)
Definition diffusion_fun (c : R) : ufun :=
  mkufun (fun x => c * x / (1 - c * x))%R
         (fun z => Cdiv (Cscal c z) (Csub C1 (Cscal c z))).
(** diffusion.py:197-211, the loop body of [solve_fast_diag] *)
Definition diffusion_component (tpu : bool) (eigh : arr R -> arr R * arr R) (circulant : bool) (implementation : option impl)
  (nu dt : R) (u : gvar) : result gvar :=
  let* laplacians := laplacian_matrix_w_boundaries (ggrid (garray u)) (goff (garray u)) (gbc u) in
  let* op := transform tpu eigh (diffusion_fun (dt * nu)%R) laplacians true circulant implementation in
  let* u_interior := trim_boundary (gbc u) (garray u) in
  let* transformed := diffusion_rhs_transform u_interior (gbc u) in
  let* d := op transformed in
  let* u_diffused := ga_add u_interior (mkga d (goff u_interior) (ggrid u_interior)) in
  pad_and_impose_bc (gbc u) u_diffused (Some (goff (garray u))) EXTEND.
(** diffusion.py:166-212 [solve_fast_diag] *)
Definition diffusion_solve_fast_diag (tpu : bool) (eigh : arr R -> arr R * arr R) (v : list gvar) (nu dt : R)
  (implementation : option impl) : result (list gvar) :=
  let circulant := has_all_periodic v in
  let implementation := if circulant then implementation else Some Matmul in
  mapM (diffusion_component tpu eigh circulant implementation nu dt) v.
