(** * Model of jax_cfd/ml/viscosities.py and of the eddy-viscosity entry of jax_cfd/ml/diffusions.py; jax_cfd/base/finite_differences.py [gradient_tensor]

    Networks are arbitrary functions on arrays, as in Networks_model.v: [tower n] has [n] output channels.
    A GridArrayTensor is a list of rows of arrays, as in Subgrid_model.v. *)
From Verif Require Import Prelude NdArr Grids_model Boundaries_model FD_model Interp_model Advection_model TimeStep_model Equations_model Subgrid_model.
Set Implicit Arguments.
Local Open Scope R_scope.

(** [jnp.stack(l, axis=-1)] *)
Definition stack_last (l : list (arr R)) : result (arr R) :=
  match l with
  | [] => Err EValue
  | a :: _ => if forallb (fun b => shape_eqb (shp a) (shp b)) l
              then Ok (mkarr (shp a ++ [length l]) (fun ix => get (nth (Z.to_nat (last ix 0%Z)) l a) (removelast ix)))
              else Err EValue
  end.
(** [jnp.squeeze(a, axis=-1)] *)
Definition squeeze_last (a : arr R) : result (arr R) :=
  if (last (shp a) 0 =? 1)%nat then Ok (mkarr (removelast (shp a)) (fun ix => get a (ix ++ [0%Z]))) else Err EValue.
(** [jnp.split(a, np.arange(1, n), axis=-1)]: pieces start at channels 0, 1, ..., n - 1 and end where the next one starts, the last
    one at the last channel. *)
Definition split_last (n : nat) (a : arr R) : list (arr R) :=
  map (fun k => let stop := if (S k <? n)%nat then S k else last (shp a) 0%nat in
                mkarr (removelast (shp a) ++ [stop - k]%nat) (fun ix => get a (removelast ix ++ [(last ix 0 + Z.of_nat k)%Z])))
      (seq 0 (Nat.max n 1)).
(** [d\[offset\]] for a dictionary keyed by offsets *)
Definition offset_get {T} (d : list (list Q * T)) (o : list Q) : result T :=
  match find (fun kv => off_eqb (fst kv) o) d with Some kv => Ok (snd kv) | None => Err EIndex end.
(** [jax.tree.unflatten(tree_structure(s_ij), data)]: the data at the offsets and on the grids of s_ij *)
Definition unflatten_like (data : garr -> result (arr R)) (s_ij : tensor) : result tensor :=
  mapM (mapM (fun s => let* d := data s in Ok (mkga d (goff s) (ggrid s)))) s_ij.

(** [interpolate] of ml/viscosities.py:56-67 [interpolate] and ml/viscosities.py:115-126 [interpolate]; [interp] stands for
    interpolate_module(grid, dt, physics_specs) with its time step *)
Definition periodic_interpolate (g : grid) (interp : gvar -> list Q -> list gvar -> result gvar) (c : garr) (offset : list Q) (v : list gvar) : result garr :=
  let* c_bc := mk_gvar c (periodic_bc (gndim g)) in
  let* w := interp c_bc offset v in Ok (garray w).
(** The common end of ml/viscosities.py:69-100 [viscosity_fn] and ml/viscosities.py:128-162 [viscosity_fn].
    [unique] is list(set(.)): some order, without repetition, of the offsets. *)
Definition scalar_viscosity (g : grid) (interp : gvar -> list Q -> list gvar -> result gvar) (unique : list (list Q) -> list (list Q))
  (tower : nat -> arr R -> result (arr R)) (viscosity_scale : R) (inputs : arr R) (s_ij : tensor) (v : list gvar) : result tensor :=
  let unique_offsets := unique (map goff (concat s_ij)) in
  let* out := tower 1%nat inputs in
  let predicted_viscosity := amap (fun y => (viscosity_scale + / 1000000) * y) out in
  let* d := squeeze_last predicted_viscosity in
  let predicted_viscosity := mkga d (cell_center g) g in
  let* interpolated_viscosities := mapM (fun o => let* w := periodic_interpolate g interp predicted_viscosity o v in Ok (o, w)) unique_offsets in
  unflatten_like (fun s => let* w := offset_get interpolated_viscosities (goff s) in Ok (gdata w)) s_ij.
(** ml/viscosities.py:47-102 [learned_scalar_viscosity] *)
Definition learned_scalar_viscosity (g : grid) interp unique tower (viscosity_scale : R) (s_ij : tensor) (v : list gvar) : result tensor :=
  let* inputs := stack_last (map (fun u => gdata (garray u)) v) in
  scalar_viscosity g interp unique tower viscosity_scale inputs s_ij v.
(** ml/viscosities.py:106-164 [learned_scalar_viscosity_from_gradients] *)
Definition learned_scalar_viscosity_from_gradients (g : grid) interp unique tower (viscosity_scale : R) (s_ij : tensor) (v : list gvar) : result tensor :=
  let* centered_s_ij := mapM (mapM (fun x => periodic_interpolate g interp x (cell_center g) v)) s_ij in
  let* inputs := stack_last (map gdata (concat centered_s_ij)) in
  scalar_viscosity g interp unique tower viscosity_scale inputs s_ij v.
(** ml/viscosities.py:168-210 [learned_tensor_viscosity] *)
Definition learned_tensor_viscosity (g : grid) (unique : list (list Q) -> list (list Q)) (tower : nat -> arr R -> result (arr R))
  (viscosity_scale : R) (s_ij : tensor) (v : list gvar) : result tensor :=
  let unique_offsets := unique (map goff (concat s_ij)) in
  let num_offsets := length unique_offsets in
  let* inputs := stack_last (map (fun u => gdata (garray u)) v) in
  let* out := tower num_offsets inputs in
  let viscosities := amap (fun y => (viscosity_scale + / 1000000) * y) out in
  let* viscosities_dict := mapM (fun ov => let* d := squeeze_last (snd ov) in Ok (fst ov, d)) (combine unique_offsets (split_last num_offsets viscosities)) in
  unflatten_like (fun s => offset_get viscosities_dict (goff s)) s_ij.
(** ml/viscosities.py:29-43 [smagorinsky_viscosity]: the scale is ignored *)
Definition ml_smagorinsky_viscosity interp (cs viscosity_scale : R) : tensor -> list gvar -> result tensor := smagorinsky_viscosity interp cs.
(** ml/viscosities.py:214-249 [eddy_viscosity_model] *)
Definition eddy_viscosity_model (specs_viscosity : R) (viscosity_scale : option R) (viscosity_model : R -> tensor -> list gvar -> result tensor)
  : list gvar -> result (list garr) :=
  let viscosity_scale := match viscosity_scale with Some s => s | None => specs_viscosity end in
  evm_model (viscosity_model viscosity_scale).
(** ml/diffusions.py:79-94 [implicit_evm_solve_with_diffusion] *)
Definition ml_implicit_evm_solve_with_diffusion cg (specs_viscosity : R) (viscosity_model : R -> tensor -> list gvar -> result tensor)
  : list gvar -> R -> R -> result (list gvar) :=
  implicit_evm_solve_with_diffusion cg (eddy_viscosity_model specs_viscosity None viscosity_model).

(** finite_differences.py:166-183 [gradient_tensor] of one variable *)
Definition gradient_tensor1 (v : gvar) : result (list garr) :=
  mapM (fun axis =>
    let* offset := getM (goff (garray v)) axis in
    if Qeq_bool offset 0 then forward_difference v axis
    else if Qeq_bool offset 1 then backward_difference v axis
    else if Qeq_bool offset (1 # 2) then
      let* v_centered := linear_interp v (cell_center (ggrid (garray v))) in
      central_difference v_centered axis
    else Err EValue) (seq 0 (gndim (ggrid (garray v)))).
(** finite_differences.py:166-183 [gradient_tensor] of a sequence: entry (axis, component) is the derivative of that component *)
Definition gradient_tensor (v : list gvar) : result tensor :=
  let* cols := mapM gradient_tensor1 v in
  match cols with
  | [] => Err EValue
  | c :: _ => if forallb (fun c' => length c' =? length c)%nat cols
              then mapM (fun axis => mapM (fun col => getM col axis) cols) (seq 0 (length c))
              else Err EValue
  end.
