(** * Model of jax_cfd/ml/towers.py and of the convolution modules of jax_cfd/ml/layers.py.
    The weights of the networks are arbitrary; haiku's modules (ConvND, Linear, MLP, Sequential, vmap) are modelled by what they compute. *)
From Verif Require Import Prelude NdArr ArrayUtils_model Tiling_model Equations_model.
Set Implicit Arguments.
Local Open Scope Z_scope.

(** Parameters of a layer: [w\[taps..., input channel, output channel\]] and [b\[output channel\]] *)
Record params := mkparams { weights : list Z -> R; bias : Z -> R }.
(** ml/layers.py:24-69 [PeriodicConvGeneral], [effective_kernel] of the constructor: [kernel_size + (rate - 1) * (kernel_size - 1)], for sizes and rates of at least one *)
Definition effective_kernel (rate kernel_size : nat) : nat := (kernel_size + (rate - 1) * (kernel_size - 1))%nat.
(** [hk.ConvND(output_channels, kernel_shape, stride, rate, padding='VALID')] on an array with a batch axis: correlation with taps [rate] cells apart, evaluated
    at every [stride]-th cell, plus the bias.  Simplifications: an error for empty kernels and for arrays smaller than the kernel. *)
Definition hk_conv (d : nat) (p : params) (cout : nat) (K : list nat) (rate stride : nat) (x : arr R) : result (arr R) :=
  if negb (length K =? d)%nat then Err EType
  else if negb (ndim x =? d + 2)%nat || (rate =? 0)%nat || (stride =? 0)%nat || existsb (Nat.eqb 0) K then Err EValue
  else let M := firstn d (tl (shp x)) in let E := map (effective_kernel rate) K in let cin := nth (S d) (shp x) 0%nat in
       if existsb (fun em => (snd em <? fst em)%nat) (combine E M) then Err EValue
       else Ok (mkarr (nth 0 (shp x) 0%nat :: map (fun em => ((snd em - fst em) / stride + 1)%nat) (combine E M) ++ [cout])
                 (fun ix => let j := firstn d (tl ix) in let o := nth (S d) ix 0 in
                    (bias p o + asum (K ++ [cin]) (fun tx =>
                       get x (nth 0 ix 0%Z :: add_ix (map (Z.mul (Z.of_nat stride)) j) (map (Z.mul (Z.of_nat rate)) (firstn d tx)) ++ [nth d tx 0%Z]) * weights p (tx ++ [o])))%R)).
(** ml/layers.py:24-69 [PeriodicConvGeneral], [self._padding] of the constructor *)
Definition conv_padding (rate : nat) (K : list nat) : list (nat * nat) :=
  map (fun kernel_size => let effective_kernel := effective_kernel rate kernel_size in
                          let pad_left := (effective_kernel / 2)%nat in (pad_left, (effective_kernel - pad_left - 1)%nat)) K.
(** ml/layers.py:24-69 [PeriodicConvGeneral] *)
Definition periodic_conv_general (d : nat) (layout : option (list nat)) (p : params) (cout : nat) (K : list nat) (rate stride : nat) (x : arr R) : result (arr R) :=
  apply_convolution (hk_conv d p cout K rate stride) x layout (conv_padding rate K).
(** ml/towers.py:30-37 [periodic_convolution] with 18-21 [PERIODIC_CONV_MODULES]: one to three axes.  A configuration may fix [tile_layout]. *)
Definition periodic_convolution_module (layout : option (list nat)) (p : params) (cout : nat) (K : list nat) (ndim rate stride : nat) (x : arr R) : result (arr R) :=
  if negb ((1 <=? ndim) && (ndim <=? 3))%nat then Err EIndex else periodic_conv_general ndim layout p cout K rate stride x.

(** ml/layers.py:372-396 [rescale_to_range] for distinct non-negative axes.  The indices of a slice: all those that agree with [ix] outside [axes]. *)
Definition slice_indices (s : list nat) (axes : list nat) (ix : list Z) : list (list Z) :=
  filter (fun jx => forallb (fun i => existsb (Nat.eqb i) axes || (nth i jx 0 =? nth i ix 0)) (seq 0 (length s))) (all_indices s).
Definition slice_max (x : arr R) (axes : list nat) (ix : list Z) : R :=
  match map (get x) (slice_indices (shp x) axes ix) with [] => 0%R | h :: l => fold_left Rmax l h end.
Definition slice_min (x : arr R) (axes : list nat) (ix : list Z) : R :=
  match map (get x) (slice_indices (shp x) axes ix) with [] => 0%R | h :: l => fold_left Rmin l h end.
Definition rescale_to_range (inputs : arr R) (min_value max_value : R) (axes : list nat) : result (arr R) :=
  if existsb (fun i => (ndim inputs <=? i)%nat) axes then Err EValue
  else if existsb (fun i => (nth i (shp inputs) 0 =? 0)%nat) axes then Err EValue
  else Ok (mkarr (shp inputs) (fun ix =>
         let inputs_max := slice_max inputs axes ix in
         let inputs_min := slice_min inputs axes ix in
         let scale := ((inputs_max - inputs_min) / (max_value - min_value))%R in
         ((get inputs ix - inputs_min) / scale + min_value)%R)).
(** ml/towers.py:89-110 [scale_to_range], 69-74 [fixed_scale], and the default scaling [lambda x, axes: x] *)
Definition scale_to_range (min_value max_value : R) (inputs : arr R) (axes : list nat) : result (arr R) := rescale_to_range inputs min_value max_value axes.
Definition fixed_scale (rescaled_one : R) (inputs : arr R) (axes : list nat) : result (arr R) := Ok (amap (fun v => v * rescaled_one)%R inputs).
Definition no_scale (inputs : arr R) (axes : list nat) : result (arr R) := Ok inputs.

(** ml/towers.py:202-267 [forward_flex_tower_factory]; [conv_module p cout K ndim rate stride] is the convolution module with parameters [p]; layer number [i] has the
    parameters [ps i].  [strides] and [rates] are an integer (inl) or a tuple (inr). *)
Definition all_layers (n : nat) (a : nat + list nat) : list nat := match a with inl k => repeat k n | inr l => l end.
Definition conv_type := params -> nat -> list nat -> nat -> nat -> nat -> arr R -> result (arr R).
Fixpoint run_hidden (conv_module : conv_type) (ndim : nat) (nonlinearity : R -> R) (ps : nat -> params) (i : nat) (layers : list (nat * (list nat * (nat * nat)))) (x : arr R) : result (arr R) :=
  match layers with
  | [] => Ok x
  | (num_channels, (kernel_shape, (rate, stride))) :: rest =>
      let* y := conv_module (ps i) num_channels kernel_shape ndim rate stride x in
      run_hidden conv_module ndim nonlinearity ps (S i) rest (amap nonlinearity y)
  end.
Definition forward_flex_tower (num_output_channels ndim : nat) (channels : list nat) (kernel_shapes : list (list nat)) (rates strides : nat + list nat)
  (output_kernel_shape : list nat) (output_rate output_stride : nat) (conv_module : conv_type) (nonlinearity : R -> R)
  (inputs_scale_fn output_scale_fn : arr R -> list nat -> result (arr R)) (ps : nat -> params) : result (arr R -> result (arr R)) :=
  let n_convs := length channels in
  let strides := all_layers n_convs strides in
  let rates := all_layers n_convs rates in
  let ndim_axes := seq 0 ndim in
  if negb ((length kernel_shapes =? n_convs) && (length rates =? n_convs) && (length strides =? n_convs))%nat then Err EValue
  else Ok (fun inputs =>
    let* x := inputs_scale_fn inputs ndim_axes in
    let* x := run_hidden conv_module ndim nonlinearity ps 0 (combine channels (combine kernel_shapes (combine rates strides))) x in
    let* x := conv_module (ps n_convs) num_output_channels output_kernel_shape ndim output_rate output_stride x in
    output_scale_fn x ndim_axes).
(** ml/towers.py:144-198 [forward_tower_factory] *)
Definition forward_tower (num_output_channels ndim num_hidden_channels kernel_size num_hidden_layers : nat) (rates strides : nat + list nat)
  (output_kernel_size output_dilation_rate output_stride : nat) (conv_module : conv_type) (nonlinearity : R -> R)
  (inputs_scale_fn output_scale_fn : arr R -> list nat -> result (arr R)) (ps : nat -> params) : result (arr R -> result (arr R)) :=
  let channels := repeat num_hidden_channels num_hidden_layers in
  let kernel_shapes := repeat (repeat kernel_size ndim) num_hidden_layers in
  let output_kernel_shape := repeat output_kernel_size ndim in
  forward_flex_tower num_output_channels ndim channels kernel_shapes rates strides output_kernel_shape output_dilation_rate output_stride conv_module nonlinearity inputs_scale_fn output_scale_fn ps.

(** jax broadcasting is not modelled: [a + b] of arrays of equal shape *)
Definition arr_add (a b : arr R) : result (arr R) :=
  if (length (shp a) =? length (shp b))%nat && forallb (fun mn => (fst mn =? snd mn)%nat) (combine (shp a) (shp b)) then Ok (amap2 Rplus a b) else Err EShape.
(** ml/towers.py:271-292 [residual_block_tower_factory]; [block_factory i n] is the block number [i] built for [n] output channels.
    As in the code the blocks are built when the tower runs. *)
Fixpoint run_blocks (block_factory : nat -> nat -> result (arr R -> result (arr R))) (skip_connection_fn : arr R -> nat -> result (arr R)) (i n : nat) (x : arr R) : result (arr R) :=
  match n with
  | O => Ok x
  | S n' => let* skip := skip_connection_fn x i in
            let* block := block_factory i (last (shp skip) 0%nat) in
            let* y := block x in
            let* x := arr_add skip y in
            run_blocks block_factory skip_connection_fn (S i) n' x
  end.
Definition residual_block_tower (num_output_channels ndim num_blocks : nat) (block_factory : nat -> nat -> result (arr R -> result (arr R)))
  (skip_connection_fn : arr R -> nat -> result (arr R)) (inputs_scale_fn output_scale_fn : arr R -> list nat -> result (arr R)) (inputs : arr R) : result (arr R) :=
  let* inputs := inputs_scale_fn inputs (seq 0 ndim) in
  let* inputs := run_blocks block_factory skip_connection_fn 0 (num_blocks - 1) inputs in
  let* last_block := block_factory (num_blocks - 1)%nat num_output_channels in
  let* y := last_block inputs in
  output_scale_fn y (seq 0 ndim).
(** ml/towers.py:296-300 [residual_connection] *)
Definition residual_connection (module_ : arr R -> result (arr R)) (inputs : arr R) : result (arr R) :=
  let* y := module_ inputs in arr_add inputs y.

(** [hk.Linear(output_size)] on the last axis *)
Definition hk_linear (p : params) (output_size : nat) (x : arr R) : result (arr R) :=
  if (ndim x =? 0)%nat then Err EValue
  else let n := last (shp x) 0%nat in
       Ok (mkarr (removelast (shp x) ++ [output_size])
            (fun ix => bias p (last ix 0%Z) + rsum n (fun c => get x (removelast ix ++ [c]) * weights p [c; last ix 0%Z]))%R).
(** [hk.nets.MLP(output_sizes, activation)]: the activation between the layers, not after the last one *)
Fixpoint hk_mlp (activation : R -> R) (ps : nat -> params) (i : nat) (output_sizes : list nat) (x : arr R) : result (arr R) :=
  match output_sizes with
  | [] => Ok x
  | [n] => hk_linear (ps i) n x
  | n :: rest => let* y := hk_linear (ps i) n x in hk_mlp activation ps (S i) rest (amap activation y)
  end.
(** ml/towers.py:114-140 [MlpTowerFactory]: [hk.vmap] over [ndim] leading axes needs that many and at least one more *)
Definition mlp_tower (output_size ndim num_hidden_units num_hidden_layers : nat) (nonlinearity : R -> R)
  (inputs_scale_fn output_scale_fn : arr R -> list nat -> result (arr R)) (ps : nat -> params) (inputs : arr R) : result (arr R) :=
  let output_sizes := repeat num_hidden_units num_hidden_layers ++ [output_size] in
  let* x := inputs_scale_fn inputs (seq 0 ndim) in
  let* y := if (length (shp x) <=? ndim)%nat then Err EValue else hk_mlp nonlinearity ps 0 output_sizes x in
  output_scale_fn y (seq 0 ndim).
