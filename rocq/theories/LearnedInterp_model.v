(** * Model of jax_cfd/ml/interpolations.py and of jax_cfd/ml/layers.py [fuse_spatial_derivative_layers], [SpatialDerivative]

    Networks are arbitrary functions on arrays, as in Networks_model.v: [tower n] has [n] output channels.
    A tag is [None] or one of countably many names. Python dictionaries are association lists in insertion order. *)
From Verif Require Import Prelude NdArr Grids_model ArrayUtils_model Networks_model Viscosities_model Tiling_model Stencil_model.
Set Implicit Arguments.
Local Open Scope R_scope.

Definition tag := option nat.
(** A key (input_offset, target_offset, tag); tuples of numbers are equal when the numbers are. *)
Definition ikey := (list Q * list Q * tag)%type.
Definition tag_eqb (a b : tag) : bool := match a, b with None, None => true | Some x, Some y => (x =? y)%nat | _, _ => false end.
Definition key_eqb (a b : ikey) : bool :=
  off_eqb (fst (fst a)) (fst (fst b)) && off_eqb (snd (fst a)) (snd (fst b)) && tag_eqb (snd a) (snd b).
(** [d\[k\] = v]: a key already present keeps its place (and its key object). *)
Fixpoint od_set {V} (d : list (ikey * V)) (k : ikey) (v : V) : list (ikey * V) :=
  match d with [] => [(k, v)] | (k', v') :: d' => if key_eqb k' k then (k', v) :: d' else (k', v') :: od_set d' k v end.
(** [d.get(k)] *)
Definition od_get {V} (d : list (ikey * V)) (k : ikey) : option V := option_map snd (find (fun kv => key_eqb (fst kv) k) d).
(** [np.cumsum] with a leading 0: the places where the pieces start *)
Fixpoint starts_from (a : nat) (sizes : list nat) : list nat :=
  match sizes with [] => [] | s :: r => a :: starts_from (a + s) r end.
(** [jnp.split(a, np.cumsum(sizes), axis=-1)] without its last piece, which every caller drops by [zip] or never indexes.
    Simplification: the sizes fit in the last axis. *)
Definition split_sizes (sizes : list nat) (a : arr R) : list (arr R) :=
  map (fun st => mkarr (removelast (shp a) ++ [snd st]) (fun ix => get a (removelast ix ++ [(last ix 0 + Z.of_nat (fst st))%Z])))
      (combine (starts_from 0 sizes) sizes).
(** [jnp.sum(a, axis=-1, keepdims=True)] *)
Definition sum_last (a : arr R) : arr R :=
  mkarr (removelast (shp a) ++ [1%nat]) (fun ix => rsum (last (shp a) 0%nat) (fun k => get a (removelast ix ++ [k]))).

(** [scipy.linalg.block_diag] of matrices given as lists of rows *)
Definition ncols (m : list (list R)) : nat := length (hd [] m).
Fixpoint block_diag (ms : list (list (list R))) : list (list R) :=
  match ms with
  | [] => []
  | m :: r => map (fun row => row ++ repeat 0 (fold_right Nat.add 0%nat (map ncols r))) m ++ map (fun row => repeat 0 (ncols m) ++ row) (block_diag r)
  end.
Definition sd_subspace_size (sd : spatial_derivative) : nat := Z.to_nat (pc_subspace_size (sd_constraint sd)).
(** layers.py:618-620 [stencil_size] *)
Definition sd_stencil_size (sd : spatial_derivative) : nat := asize (sd_shape sd).
(** The joint constraint of layers.py:668-672: biases in sequence, nullspaces on the diagonal *)
Definition joint_constraint (sds : list spatial_derivative) : poly_constraint :=
  mkPC (concat (map (fun sd => pc_bias (sd_constraint sd)) sds)) (block_diag (map (fun sd => pc_nullspace (sd_constraint sd)) sds))
       (Z.of_nat (fold_right Nat.add 0%nat (map sd_subspace_size sds))).
(** [b + a] for a vector [b] as long as the last axis of [a] *)
Definition add_last (b : list R) (a : arr R) : result (arr R) :=
  if (last (shp a) 0 =? length b)%nat then Ok (mkarr (shp a) (fun ix => nth (Z.to_nat (last ix 0%Z)) b 0 + get a ix)) else Err EType.
(** layers.py:676-688: the coefficients of all derivatives; the tile layout, common to all derivatives (674), is an argument; a 1x1 convolution needs a tile layout ([len(None)]).
    Simplification: the kernel is not rounded to float32. *)
Definition fused_coefficients (sds : list spatial_derivative) (tile_layout : option (list nat)) (constrain_with_conv : bool) (all_logits : arr R) : result (arr R) :=
  let joint := joint_constraint sds in
  if constrain_with_conv then
    match tile_layout with
    | None => Err EType
    | Some l =>
        let kernel := mkarr (repeat 1%nat (length l) ++ [length (pc_nullspace joint); length (pc_bias joint)])
                            (fun ix => nth (Z.to_nat (last ix 0%Z)) (nth (Z.to_nat (last (removelast ix) 0%Z)) (pc_nullspace joint) []) 0) in
        let* y := periodic_convolution all_logits kernel tile_layout in
        add_last (pc_bias joint) y
    end
  else
    match tile_layout with
    | None => constraint_call joint all_logits
    | Some l => let* t := space_to_batch all_logits l in
                let* c := constraint_call joint t in
                batch_to_space c l
    end.
(** layers.py:645-713 [fuse_spatial_derivative_layers] *)
Definition fuse_spatial_derivative_layers (derivatives : list (ikey * spatial_derivative)) (all_logits : arr R) (tile_layout : option (list nat))
  (constrain_with_conv fuse_patches : bool) : result (list (ikey * (arr R -> result (arr R)))) :=
  let sds := map snd derivatives in
  match sds with
  | [] => Err EValue
  | _ =>
    let* all_coefficients := fused_coefficients sds tile_layout constrain_with_conv all_logits in
    let stencil_sizes := map sd_stencil_size sds in
    let coefficients_list := split_sizes stencil_sizes all_coefficients in
    if existsb (fun sd => existsb (fun r => negb (r =? 0)%Z) (sd_roll sd)) sds then Err EValue
    else Ok (map (fun iksc => let '(index, (ksd, coefficients)) := iksc in
      (fst ksd, fun inputs =>
        if fuse_patches then
          let* all_patches := fused_extract_patches inputs (map sd_shape sds) tile_layout in
          if shape_eqb (shp all_coefficients) (shp all_patches) then
            let all_terms := mkarr (shp all_coefficients) (fun ix => get all_coefficients ix * get all_patches ix) in
            match nth_error (split_sizes stencil_sizes all_terms) index with Some t => Ok (sum_last t) | None => Err EIndex end
          else Err EType
        else
          let* patches := sd_extract_patches (snd ksd) inputs in
          apply_coefficients coefficients patches))
      (combine (seq 0 (length derivatives)) (combine derivatives coefficients_list)))
  end.

Section Oracles.
Variable solve : list (list R) -> list R -> result (list R).
Variable svd_v : list (list R) -> list (list R).

(** layers.py:547-575 [StencilCoefficients] and layers.py:716-760 [SpatialDerivative], constructor and call *)
Definition spatial_derivative_call (stencil_shape : list nat) (input_offset target_offset : list Q) (derivative_orders : list nat)
  (tower : nat -> arr R -> result (arr R)) (steps : list R) (extract_patch_method : patch_method) (tile_layout : option (list nat))
  (inputs : arr R) (auxiliary_inputs : list (arr R)) : result (arr R) :=
  let '(roll, shift) := get_roll_and_shift input_offset target_offset in
  let stencils := get_stencils stencil_shape shift steps in
  let* pc := make_constraint solve svd_v stencils derivative_orders FiniteVolume steps 1 1 None in
  let rolled := roll_flat inputs roll in
  let* patches := extract_patches rolled stencil_shape extract_patch_method tile_layout in
  let* rolled := concatenate (rolled :: map (fun aux => roll_flat aux roll) auxiliary_inputs) (-1) in
  let* parametrization := tower (Z.to_nat (pc_subspace_size pc)) rolled in
  let* coefficients := constraint_call pc parametrization in
  apply_coefficients coefficients patches.

(** ml/interpolations.py:75-87: one derivative for every component, control-volume face and tag *)
Definition interpolation_keys (v : list gvar) (tags : list tag) : list ikey :=
  flat_map (fun u => flat_map (fun target => map (fun t => (goff (garray u), target, t)) tags) (cv_offsets (goff (garray u)))) v.
Definition interpolation_layers (g : grid) (keys : list ikey) (stencil_size_fn : ikey -> list nat) (extract_patch_method : patch_method)
  (tile_layout : option (list nat)) : result (list (ikey * spatial_derivative)) :=
  foldM (fun d key =>
    let* sd := make_spatial_derivative solve svd_v (stencil_size_fn key) (fst (fst key)) (snd (fst key)) (repeat 0%nat (gndim g)) (gstep g)
                 extract_patch_method tile_layout FiniteVolume in
    Ok (od_set d key sd)) [] keys.
(** ml/interpolations.py:43-98 [FusedLearnedInterpolation.__init__]; the result is the dictionary of interpolators *)
Definition learned_interpolation (g : grid) (v : list gvar) (tags : list tag) (stencil_size_fn : ikey -> list nat) (tower : nat -> arr R -> result (arr R))
  (extract_patch_method : patch_method) (fuse_constraints fuse_patches constrain_with_conv : bool) (tile_layout : option (list nat))
  : result (list (ikey * (arr R -> result (arr R)))) :=
  let* derivatives := interpolation_layers g (interpolation_keys v tags) stencil_size_fn extract_patch_method tile_layout in
  let output_sizes := map (fun kd => sd_subspace_size (snd kd)) derivatives in
  let* inputs := stack_last (map (fun u => gdata (garray u)) v) in
  let* all_logits := tower (fold_right Nat.add 0%nat output_sizes) inputs in
  if fuse_constraints then fuse_spatial_derivative_layers derivatives all_logits tile_layout constrain_with_conv fuse_patches
  else Ok (map (fun kdl => (fst (fst kdl), fun inputs => sd_call (snd (fst kdl)) inputs (snd kdl)))
               (combine derivatives (split_sizes output_sizes all_logits))).
(** ml/interpolations.py:69-70: an integer [stencil_size] *)
Definition isotropic_sizes (d stencil_size : nat) (_ : ikey) : list nat := repeat stencil_size d.
(** ml/interpolations.py:122-129 [_nearest_neighhbor_stencil_size_fn], used by ml/interpolations.py:133-142 [anisotropic_learned_interpolation] *)
Definition anisotropic_sizes (stencil_size : nat) (key : ikey) : list nat :=
  map (fun st => if Qeq_bool (fst st) (snd st) then 1%nat else stencil_size) (combine (fst (fst key)) (snd (fst key))).

(** ml/interpolations.py:179-195 [IndividualLearnedInterpolation.__call__] with 169-177 [_get_interpolation_module]: every pair of offsets
    has its own network [tower_of], built on first use *)
Definition individual_interpolation (g : grid) (stencil_size : nat) (tower_of : list Q * list Q -> nat -> arr R -> result (arr R))
  (c : gvar) (offset : list Q) (v : list gvar) : result gvar :=
  if off_eqb (goff (garray c)) offset then Ok c
  else
    let* res := spatial_derivative_call (repeat stencil_size (gndim g)) (goff (garray c)) offset (repeat 0%nat (gndim g))
                  (tower_of (goff (garray c), offset)) (gstep g) PRoll None
                  (expand_last (gdata (garray c))) (map (fun u => expand_last (gdata (garray u))) v) in
    let* d := squeeze_last res in
    mk_gvar (mkga d offset (ggrid (garray c))) (gbc c).
End Oracles.

(** ml/interpolations.py:100-119 [FusedLearnedInterpolation.__call__].  A missing key is a [KeyError] ([EIndex]). *)
Definition learned_call (interpolators : list (ikey * (arr R -> result (arr R)))) (c : gvar) (offset : list Q) (t : tag) : result gvar :=
  let* c := mk_gvar (mkga (expand_last (gdata (garray c))) (goff (garray c)) (ggrid (garray c))) (gbc c) in
  if off_eqb (goff (garray c)) offset then Ok c
  else match od_get interpolators (goff (garray c), offset, t) with
       | None => Err EIndex
       | Some interpolator =>
           let* y := interpolator (gdata (garray c)) in
           let* result := squeeze_last y in
           mk_gvar (mkga result offset (ggrid (garray c))) (gbc c)
       end.
