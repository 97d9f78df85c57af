(** Generated by tools/gen.py from TConvMoreProps.v: property theorems only. *)
From Verif Require Import Prelude NdArr ArrayUtils_model Tiling_model Equations_model Towers_model TConv_model SpecTile SpecTower SpecTConv TilingProofs TilingProps TowerProps TowerMoreProps XarrayProps TConvProps.
From Verif Require Import TConvMoreProps.
Local Open Scope Z_scope.
Set Implicit Arguments.

(** C73. A transpose convolution of stride s is the ordinary periodic convolution layer (stride one, same weights with the channel axes exchanged, same bias) applied to the input spread out on the grid that is s times finer. *)
Theorem transpose_is_conv_of_spread : forall (p : params) (N K : list nat) (cin cout stride : nat) (x : arr R), channels_last x N cin -> kernel_fits stride N K ->
  exists y1 y2, periodic_transpose_convolution None p cout K (length N) None stride x = Ok y1 /\
    periodic_convolution_module None (mkparams (swap_channels (length N) (weights p)) (bias p)) cout K (length N) 1 1 (spread_out stride N cin x) = Ok y2 /\
    channels_last y1 (map (Nat.mul stride) N) cout /\ aeq y1 y2.
Proof. exact (@transpose_is_conv_of_spread_lem). Qed.
Print Assumptions transpose_is_conv_of_spread.

(** The hypotheses are met by a concrete case. *)
Example transpose_is_conv_of_spread_ex : exists y, periodic_transpose_convolution None p33 3 [3; 5]%nat 2 None 2 x46 = Ok y /\ channels_last y [8; 12]%nat 3.
Proof. exact (@transpose_is_conv_of_spread_ex_lem). Qed.

(** C73. Transpose convolutions move along with their input: moving the input by k cells moves the output by stride * k cells, for every k, kernel, weights and stride. *)
Theorem transpose_moves_along : forall (p : params) (N K : list nat) (cin cout stride : nat) (k : list Z) (x1 x2 : arr R), kernel_fits stride N K -> length k = length N -> moved k N cin x1 x2 ->
  exists y1 y2, periodic_transpose_convolution None p cout K (length N) None stride x1 = Ok y1 /\ periodic_transpose_convolution None p cout K (length N) None stride x2 = Ok y2 /\
    moved (map (Z.mul (Z.of_nat stride)) k) (map (Nat.mul stride) N) cout y1 y2.
Proof. exact (@transpose_moves_along_lem). Qed.
Print Assumptions transpose_moves_along.

(** The hypotheses are met by a concrete case. *)
Example transpose_moves_along_ex : moved [1; -2] [4; 6]%nat 1 x46 (mkarr [4; 6; 1]%nat (fun ix => get x46 (cell_at [4; 6]%nat [] (firstn 2 ix) [1; -2] ++ [nth 2 ix 0]))).
Proof. exact (@transpose_moves_along_ex_lem). Qed.

(** C73. Transpose convolution is the transpose of convolution: for odd kernels, every stride s and all weights (no bias), sum(conv(x) * y) = sum(x * conv_transpose(y)), where conv is the periodic convolution layer of stride s from the fine to the coarse grid and conv_transpose the transpose layer with the taps in reverse order. *)
Theorem transpose_is_adjoint : forall (w : list Z -> R) (N K : list nat) (cin cout stride : nat) (x y : arr R), kernel_fits stride N K -> (forall i, (i < length K)%nat -> Nat.Odd (nth i K 0%nat)) ->
  channels_last x (map (Nat.mul stride) N) cin -> channels_last y N cout ->
  exists cx ty, periodic_convolution_module None (mkparams w (fun _ => 0%R)) cout K (length N) 1 stride x = Ok cx /\ channels_last cx N cout /\
    periodic_transpose_convolution None (mkparams (reverse_taps K w) (fun _ => 0%R)) cin K (length N) None stride y = Ok ty /\ channels_last ty (map (Nat.mul stride) N) cin /\
    inner (N ++ [cout]) cx y = inner (map (Nat.mul stride) N ++ [cin]) x ty.
Proof. exact (@transpose_is_adjoint_lem). Qed.
Print Assumptions transpose_is_adjoint.

(** The hypotheses are met by a concrete case. *)
Example transpose_is_adjoint_ex : kernel_fits 2 [4; 6]%nat [3; 5]%nat /\ (forall i, (i < 2)%nat -> Nat.Odd (nth i [3; 5]%nat 0%nat)) /\ channels_last x46 [4; 6]%nat 1.
Proof. exact (@transpose_is_adjoint_ex_lem). Qed.

(** C73. With stride one a transpose convolution is a convolution: the periodic convolution layer with the same weights (channel axes exchanged), bias and kernel. *)
Theorem unit_stride_transpose : forall (p : params) (N K : list nat) (cin cout : nat) (x : arr R), channels_last x N cin -> kernel_fits 1 N K ->
  exists y1 y2, periodic_transpose_convolution None p cout K (length N) None 1 x = Ok y1 /\
    periodic_convolution_module None (mkparams (swap_channels (length N) (weights p)) (bias p)) cout K (length N) 1 1 x = Ok y2 /\ channels_last y1 N cout /\ aeq y1 y2.
Proof. exact (@unit_stride_transpose_lem). Qed.
Print Assumptions unit_stride_transpose.

(** The hypotheses are met by a concrete case. *)
Example unit_stride_transpose_ex : channels_last x46 [4; 6]%nat 1 /\ kernel_fits 1 [4; 6]%nat [3; 5]%nat.
Proof. exact (@unit_stride_transpose_ex_lem). Qed.

(** C73. A kernel that is too wide for an axis (kernel // stride >= axis size) is refused with a type error. *)
Theorem wide_transpose_refused : forall (p : params) (N K : list nat) (cin cout stride i : nat) (x : arr R), channels_last x N cin -> (1 <= length N <= 3)%nat -> length K = length N -> (0 < stride)%nat ->
  (i < length N)%nat -> (nth i N 0 <= nth i K 0 / stride)%nat -> periodic_transpose_convolution None p cout K (length N) None stride x = Err EType.
Proof. exact (@wide_transpose_refused_lem). Qed.
Print Assumptions wide_transpose_refused.

(** The hypotheses are met by a concrete case. *)
Example wide_transpose_refused_ex : periodic_transpose_convolution None p33 3 [4; 3]%nat 2 None 1 x46 = Err EType.
Proof. exact (@wide_transpose_refused_ex_lem). Qed.

(** C73. Transpose convolutions refuse a tile layout (not implemented) and a dilation rate other than one (value error). *)
Theorem transpose_refusals : forall (p : params) (K : list nat) (cout d stride r : nat) (L : list nat) (x : arr R), (1 <= d <= 3)%nat ->
  periodic_transpose_convolution (Some L) p cout K d None stride x = Err ENotImpl /\ (r <> 1%nat -> periodic_transpose_convolution None p cout K d (Some r) stride x = Err EValue).
Proof. exact (@transpose_refusals_lem). Qed.
Print Assumptions transpose_refusals.

(** The hypotheses are met by a concrete case. *)
Example transpose_refusals_ex : periodic_transpose_convolution (Some [2; 3]%nat) p33 1 [3; 3]%nat 2 None 1 x46 = Err ENotImpl.
Proof. exact (@transpose_refusals_ex_lem). Qed.
