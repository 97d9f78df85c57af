(** * Model of jax_cfd/ml/tiling.py and of the convolutions and patches of jax_cfd/ml/layers_util.py *)
From Verif Require Import Prelude NdArr ArrayUtils_model.
Set Implicit Arguments.
Local Open Scope Z_scope.

(** Row-major position of a multi-index in an array of shape [L], and back: what einops does for "(bx by bz)" and
    numpy for reshape. *)
Fixpoint tflat (L : list nat) (bx : list Z) : Z :=
  match L, bx with n :: L', b :: bx' => b * Z.of_nat (asize L') + tflat L' bx' | _, _ => 0 end.
Fixpoint tunflat (L : list nat) (k : Z) : list Z :=
  match L with [] => [] | n :: L' => (k / Z.of_nat (asize L')) :: tunflat L' (k mod Z.of_nat (asize L')) end.
Fixpoint div_ix (m : list nat) (ix : list Z) : list Z :=
  match m, ix with n :: m', i :: ix' => (i / Z.of_nat n) :: div_ix m' ix' | _, _ => [] end.
Fixpoint mod_ix (m : list nat) (ix : list Z) : list Z :=
  match m, ix with n :: m', i :: ix' => (i mod Z.of_nat n) :: mod_ix m' ix' | _, _ => [] end.
Fixpoint add_ix (a b : list Z) : list Z :=
  match a, b with x :: a', y :: b' => (x + y) :: add_ix a' b' | _, _ => [] end.
Definition layout_ndim_ok (layout : list nat) : bool := ((1 <=? length layout) && (length layout <=? 3))%nat.

(** tiling.py:36-39 [_verify_layout] *)
Definition verify_layout {A} (array : arr A) (layout : list nat) : result unit :=
  if negb (ndim array =? length layout + 2)%nat || negb (nth 0 (shp array) 0 =? asize layout)%nat then Err EValue else Ok tt.
(** tiling.py:46-62 [_tile_roll]: split the batch axis into tile coordinates, roll one of them, merge again. *)
Definition tile_roll {A} (array : arr A) (layout : list nat) (shift : Z) (axis : nat) : result (arr A) :=
  let* _ := verify_layout array layout in
  if negb (layout_ndim_ok layout) then Err ENotImpl
  else Ok (mkarr (shp array) (fun ix =>
         let b := tunflat layout (nth 0 ix 0) in
         get array (upd 0 (tflat layout (upd axis ((nth axis b 0 - shift) mod Z.of_nat (nth axis layout 0%nat)) b)) ix))).
(** [lax.dynamic_slice_in_dim(array, start, size, axis)]: the size must fit, the start is clamped. *)
Definition dynamic_slice_in_dim {A} (array : arr A) (start : Z) (size : nat) (axis : nat) : result (arr A) :=
  let n := nth axis (shp array) 0%nat in
  if (n <? size)%nat then Err EType
  else let s := Z.max 0 (Z.min start (Z.of_nat (n - size))) in
       Ok (mkarr (upd axis size (shp array)) (fun ix => get array (upd axis (s + nth axis ix 0) ix))).
(** tiling.py:65-88 [_halo_pad_1d].  Paddings are naturals. *)
Definition halo_pad_1d {A} (array : arr A) (layout : list nat) (axis : nat) (padding : nat * nat) : result (arr A) :=
  let '(pad_left, pad_right) := padding in
  let spatial_axis := (axis + 1)%nat in
  let* left := if (pad_left =? 0)%nat then Ok []
               else let start := Z.of_nat (nth spatial_axis (shp array) 0%nat) - Z.of_nat pad_left in
                    let* input_right := dynamic_slice_in_dim array start pad_left spatial_axis in
                    let* output_left := tile_roll input_right layout 1 axis in Ok [output_left] in
  let* right := if (pad_right =? 0)%nat then Ok []
                else let* input_left := dynamic_slice_in_dim array 0 pad_right spatial_axis in
                     let* output_right := tile_roll input_left layout (-1) axis in Ok [output_right] in
  concatenate (left ++ array :: right) (Z.of_nat spatial_axis).
(** tiling.py:91-112 [halo_exchange_pad] *)
Definition halo_exchange_pad {A} (array : arr A) (layout : list nat) (padding : list (nat * nat)) : result (arr A) :=
  let* _ := verify_layout array layout in
  if negb (length layout =? length padding)%nat then Err EValue
  else foldM (fun out ap => halo_pad_1d out layout (fst ap) (snd ap)) array (combine (seq 0 (length padding)) padding).
(** tiling.py:115-127 [space_to_batch]: einops "(bx x) (by y) c -> (bx by) x y c".  A zero in the layout is an error. *)
Definition space_to_batch {A} (array : arr A) (layout : list nat) : result (arr A) :=
  let d := length layout in
  if negb (layout_ndim_ok layout) then Err ENotImpl
  else if negb (ndim array =? d + 1)%nat then Err EShape
  else if existsb (fun l => (l =? 0)%nat) layout then Err EZeroDiv
  else if forallb (fun ln => (snd ln mod fst ln =? 0)%nat) (combine layout (firstn d (shp array)))
  then let tiles := map (fun ln => (snd ln / fst ln)%nat) (combine layout (firstn d (shp array))) in
       Ok (mkarr (asize layout :: tiles ++ [nth d (shp array) 0%nat])
                 (fun ix => get array (block_ix tiles (tunflat layout (nth 0 ix 0)) (firstn d (tl ix)) ++ [nth (S d) ix 0])))
  else Err EShape.
(** tiling.py:130-142 [batch_to_space]: einops "(bx by) x y c -> (bx x) (by y) c" *)
Definition batch_to_space {A} (array : arr A) (layout : list nat) : result (arr A) :=
  let d := length layout in
  if negb (layout_ndim_ok layout) then Err ENotImpl
  else if negb (ndim array =? d + 2)%nat then Err EShape
  else if negb (nth 0 (shp array) 0 =? asize layout)%nat then Err EShape
  else let tiles := firstn d (tl (shp array)) in
       Ok (mkarr (map (fun lm => (fst lm * snd lm)%nat) (combine layout tiles) ++ [nth (S d) (shp array) 0%nat])
                 (fun ix => get array (tflat layout (div_ix tiles (firstn d ix)) :: mod_ix tiles (firstn d ix) ++ [nth d ix 0]))).
(** tiling.py:145-172 [apply_convolution] *)
Definition apply_convolution {A} (conv : arr A -> result (arr A)) (inputs : arr A) (layout : option (list nat)) (padding : list (nat * nat)) : result (arr A) :=
  let layout := match layout with None => repeat 1%nat (length padding) | Some l => l end in
  let* tiled := space_to_batch inputs layout in
  let* padded := halo_exchange_pad tiled layout padding in
  let* convolved := conv padded in
  batch_to_space convolved layout.

(** layers_util.py:275-298 [_get_padding], for kernel sizes of at least 1 (0 would give a padding of -1) *)
Definition get_padding (kernel_shape : list nat) : list (nat * nat) :=
  map (fun kernel_size => let pad_right := (kernel_size / 2)%nat in
                          let pad_left := (kernel_size - pad_right - 1)%nat in (pad_left, pad_right))
      (firstn (length kernel_shape - 2) kernel_shape).
(** [jax.lax.conv_general_dilated(x, kernel, strides 1, 'VALID', ('NHWC', 'HWIO', 'NHWC'))]: correlation of every
    batch entry with the kernel (no kernel flip), summed over the input channels.  Simplification: an error if the
    kernel is larger than the array. *)
Definition conv_valid (kernel x : arr R) : result (arr R) :=
  let d := (ndim kernel - 2)%nat in
  if (ndim kernel <? 2)%nat || negb (ndim x =? d + 2)%nat then Err EValue
  else if negb (nth (S d) (shp x) 0 =? nth d (shp kernel) 0)%nat then Err EValue
  else let K := firstn d (shp kernel) in let M := firstn d (tl (shp x)) in
       if existsb (fun km => (snd km <? fst km)%nat) (combine K M) then Err EValue
       else Ok (mkarr (nth 0 (shp x) 0%nat :: map (fun km => (snd km - fst km + 1)%nat) (combine K M) ++ [nth (S d) (shp kernel) 0%nat])
                 (fun ix => asum (K ++ [nth d (shp kernel) 0%nat]) (fun tx =>
                    (get x (nth 0 ix 0%Z :: add_ix (firstn d (tl ix)) (firstn d tx) ++ [nth d tx 0%Z]) * get kernel (tx ++ [nth (S d) ix 0%Z]))%R))).
(** layers_util.py:311-329 [periodic_convolution] with 301-305 [_DIMENSION_NUMBERS]: one to three spatial axes. *)
Definition periodic_convolution (x kernel : arr R) (tile_layout : option (list nat)) : result (arr R) :=
  if negb ((3 <=? ndim kernel) && (ndim kernel <=? 5))%nat then Err EIndex
  else apply_convolution (conv_valid kernel) x tile_layout (get_padding (shp kernel)).
(** layers_util.py:335-345 [_patch_kernel]: identity matrix reshaped to (patch_size, 1) + patch_shape, then the first two
    axes moved to the end in swapped order. *)
Definition patch_kernel (patch_shape : list nat) : arr R :=
  let d := length patch_shape in
  mkarr (patch_shape ++ [1%nat; asize patch_shape])
        (fun ix => if tflat patch_shape (firstn d ix) =? nth (S d) ix 0 then 1%R else 0%R).
(** [itertools.product] of lists, first to last, and Python's [range(a, b)]. *)
Fixpoint cart (ls : list (list Z)) : list (list Z) :=
  match ls with [] => [[]] | l :: ls' => flat_map (fun x => map (cons x) (cart ls')) l end.
Definition zrange (a b : Z) : list Z := map (fun i => a + Z.of_nat i) (seq 0 (Z.to_nat (b - a))).
(** layers_util.py:348-363 [_extract_patches_roll].  Simplification: the patch must have as many axes as the squeezed array. *)
Definition extract_patches_roll (x : arr R) (patch_shape : list nat) : result (arr R) :=
  let* y := jnp_squeeze x (-1) in
  if negb (length patch_shape =? ndim y)%nat then Err EValue
  else let shifts := map (fun size => zrange ((- Z.of_nat size) / 2 + 1) (Z.of_nat size / 2 + 1)) patch_shape in
       let rolls := map (map Z.opp) (cart shifts) in
       Ok (mkarr (shp y ++ [length rolls])
                 (fun ix => get y (wrap (shp y) (add_ix (firstn (ndim y) ix) (map Z.opp (nth (Z.to_nat (nth (ndim y) ix 0)) rolls [])))))).
(** layers_util.py:366-376 [_extract_patches_conv] *)
Definition extract_patches_conv (x : arr R) (patch_shape : list nat) (tile_layout : option (list nat)) : result (arr R) :=
  periodic_convolution x (patch_kernel patch_shape) tile_layout.
(** layers_util.py:379-430 [extract_patches]; [roll] is [method == 'roll'], [conv] is [method == 'conv']. *)
Inductive patch_method := PRoll | PConv | POther.
Definition extract_patches (x : arr R) (patch_shape : list nat) (method : patch_method) (tile_layout : option (list nat)) : result (arr R) :=
  match method with
  | PRoll => extract_patches_roll x patch_shape
  | PConv => extract_patches_conv x patch_shape tile_layout
  | POther => Err EValue
  end.
(** layers_util.py:433-442 [fused_extract_patches] *)
Definition fused_extract_patches (x : arr R) (patch_shapes : list (list nat)) (tile_layout : option (list nat)) : result (arr R) :=
  let* kernel := concatenate (map patch_kernel patch_shapes) (-1) in
  periodic_convolution x kernel tile_layout.
