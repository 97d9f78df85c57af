(** * Model of the mirror convolution of jax_cfd/ml/layers.py and jax_cfd/ml/towers.py *)
From Verif Require Import Prelude NdArr Grids_model Boundaries_model Viscosities_model Towers_model.
Set Implicit Arguments.
Local Open Scope Z_scope.

(** ml/layers.py:141-177 [MirrorConvGeneral], [self._padding] of the constructor: starts at zero, every kernel size adds its pair *)
Definition mirror_padding (rate : nat) (K : list nat) : Z * Z :=
  fold_left (fun pad kernel_size => let effective_kernel := effective_kernel rate kernel_size in
                                    let pad_left := (effective_kernel / 2)%nat in
                                    (fst pad + Z.of_nat pad_left, snd pad + Z.of_nat (effective_kernel - pad_left - 1))) K (0, 0).
(** ml/layers.py:179-182 [_expand_var]: the array of the padded variable; the channel axis is added by [stack_last] below *)
Definition expand_var (rate : nat) (K : list nat) (var : gvar) : result (arr R) :=
  let* u := bc_pad_all (gbc var) (garray var) (repeat (mirror_padding rate K) (gndim (ggrid (garray var)))) MIRROR in Ok (gdata u).
(** [base_convolution] on one array without a batch axis: haiku adds the axis and removes it again *)
Definition unbatched (conv : arr R -> result (arr R)) (x : arr R) : result (arr R) :=
  let* y := conv (mkarr (1%nat :: shp x) (fun ix => get x (tl ix))) in Ok (mkarr (tl (shp y)) (fun ix => get y (0 :: ix))).
(** [array_utils.split_axis(outputs, -1)]: one array per channel *)
Definition channel_arrays (y : arr R) : list (arr R) :=
  map (fun k => mkarr (removelast (shp y)) (fun ix => get y (ix ++ [Z.of_nat k]))) (seq 0 (last (shp y) 0%nat)).
(** ml/layers.py:184-194 [__call__]: [zip] stops at the shorter of the channels and the inputs *)
Definition mirror_conv_general (d : nat) (p : params) (cout : nat) (K : list nat) (rate : nat) (inputs : list gvar) : result (list gvar) :=
  let* input_data := mapM (expand_var rate K) inputs in
  let* input_data := stack_last input_data in
  let* outputs := unbatched (hk_conv d p cout K rate 1) input_data in
  mapM (fun vi => let '(var, var_input) := vi in
          impose_bc (gbc var_input) (mkga var (goff (garray var_input)) (ggrid (garray var_input)))) (combine (channel_arrays outputs) inputs).
(** ml/towers.py:55-66 [mirror_convolution] with ml/layers.py:197-215 [MirrorConv2D]: two axes, whatever [ndim] *)
Definition mirror_convolution (p : params) (cout : nat) (K : list nat) (ndim rate : nat) (inputs : list gvar) : result (list gvar) :=
  mirror_conv_general 2 p cout K rate inputs.
