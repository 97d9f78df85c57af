(** * The transpose convolution modules of jax_cfd/ml/layers.py *)
From Verif Require Import Prelude NdArr ArrayUtils_model Tiling_model Equations_model Towers_model.
Set Implicit Arguments.
Local Open Scope Z_scope.

(** [hk.ConvNDTranspose(output_channels, kernel_shape, stride, padding='VALID')], that is [jax.lax.conv_transpose(inputs, w, strides, 'VALID')] without transposing the
    kernel: the input with [stride - 1] zeros between its cells, padded with [k - 1] zeros in front and [stride - 1 + max(k - stride, 0)] behind, correlated with the
    weights [w\[taps..., output channel, input channel\]], plus the bias.  Simplification: an error for empty kernels and for a stride of zero. *)
Definition hk_conv_transpose (d : nat) (p : params) (cout : nat) (K : list nat) (stride : nat) (x : arr R) : result (arr R) :=
  if negb (length K =? d)%nat then Err EType
  else if negb (ndim x =? d + 2)%nat || (stride =? 0)%nat || existsb (Nat.eqb 0) K then Err EValue
  else let M := firstn d (tl (shp x)) in let cin := nth (S d) (shp x) 0%nat in let s := Z.of_nat stride in
       Ok (mkarr (nth 0 (shp x) 0%nat :: map (fun km => (snd km * stride + (fst km - stride))%nat) (combine K M) ++ [cout])
            (fun ix => let j := firstn d (tl ix) in let o := nth (S d) ix 0 in
               (bias p o + asum (K ++ [cin]) (fun tx =>
                  let q := map (fun i => nth i j 0 + nth i tx 0 - (Z.of_nat (nth i K 0%nat) - 1))%Z (seq 0 d) in
                  if forallb (fun i => (nth i q 0 mod s =? 0) && (0 <=? nth i q 0) && (nth i q 0 / s <? Z.of_nat (nth i M 0%nat)))%Z (seq 0 d)
                  then get x (nth 0 ix 0%Z :: map (fun i => nth i q 0 / s)%Z (seq 0 d) ++ [nth d tx 0%Z]) * weights p (firstn d tx ++ [o; nth d tx 0%Z])
                  else 0))%R)).
(** [output\[tuple(output_slice)\]]: basic slices with non-negative bounds on the first axes, the whole last axis *)
Definition slice_axes {A} (bounds : list (nat * nat)) (x : arr A) : arr A :=
  let d := length bounds in
  mkarr (map (fun i => let '(a, b) := nth i bounds (0, 0)%nat in let n := nth i (shp x) 0%nat in (Nat.min b n - Nat.min a n)%nat) (seq 0 d) ++ skipn d (shp x))
        (fun ix => get x (map (fun i => nth i ix 0 + Z.of_nat (Nat.min (fst (nth i bounds (0, 0)%nat)) (nth i (shp x) 0%nat))) (seq 0 d) ++ skipn d ix)).
(** [jnp.roll(x, shifts, list(range(ndim)))] *)
Definition roll_axes {A} (shifts : list Z) (x : arr A) : arr A :=
  let d := length shifts in
  mkarr (shp x) (fun ix => get x (map (fun i => (nth i ix 0 - nth i shifts 0) mod Z.of_nat (nth i (shp x) 0%nat)) (seq 0 d) ++ skipn d ix)).
(** ml/layers.py:218-297 [PeriodicConvTransposeGeneral] *)
Definition periodic_conv_transpose_general (d : nat) (tile_layout : option (list nat)) (p : params) (cout : nat) (K : list nat) (stride : nat) (inputs : arr R) : result (arr R) :=
  match tile_layout with
  | Some _ => Err ENotImpl
  | None =>
      if (stride =? 0)%nat then Err EZeroDiv
      else let padding := map (fun kernel_size => (kernel_size / stride + 1, 0)%nat) K in
           let roll_shifts := map (fun kernel_size => - ((Z.of_nat kernel_size - 1) / 2)) K in
           let output_slice := map (fun i => let left_pad := fst (nth i padding (0, 0)%nat) in let axis_size := nth i (shp inputs) 0%nat in
                                             ((stride * left_pad)%nat, (stride * (axis_size + left_pad))%nat)) (seq 0 (length K)) in
           let* output := apply_convolution (hk_conv_transpose d p cout K stride) inputs None padding in
           Ok (roll_axes roll_shifts (slice_axes output_slice output))
  end.
(** ml/towers.py:40-52 [periodic_transpose_convolution] with 23-26 [PERIODIC_CONV_TRANSPOSE_MODULES]: one to three axes *)
Definition periodic_transpose_convolution (tile_layout : option (list nat)) (p : params) (cout : nat) (K : list nat) (ndim : nat) (rate : option nat) (stride : nat) (x : arr R) : result (arr R) :=
  if match rate with Some r => negb (r =? 1)%nat | None => false end then Err EValue
  else if negb ((1 <=? ndim) && (ndim <=? 3))%nat then Err EIndex
  else periodic_conv_transpose_general ndim tile_layout p cout K stride x.
