(** Generated by tools/gen.py from TowerProps.v: property theorems only. *)
From Verif Require Import Prelude NdArr ArrayUtils_model Tiling_model Equations_model Towers_model SpecTile SpecTower TilingProofs TilingProps.
From Verif Require Import TowerProps.
Local Open Scope Z_scope.
Set Implicit Arguments.

(** C72. A periodic convolution layer computes the exact circular correlation of its input with its weights, with taps "rate" cells apart and centred with the larger half before the centre, at every "stride"-th cell, plus the bias: with any layout of tiles that are wide enough, as long as the stride divides the tiles of every axis that is cut. *)
Theorem conv_layer_exact : forall p N K cin cout rate stride layout m x, channels_last x N cin -> tiled_by N (layout_for N layout) m -> tile_holds rate K m -> (0 < stride)%nat ->
  (forall i, (i < length N)%nat -> nth i (layout_for N layout) 0%nat = 1%nat \/ Nat.divide stride (nth i m 0%nat)) ->
  exists y, periodic_convolution_module layout p cout K (length N) rate stride x = Ok y /\
    channels_last y (map (fun n => ((n + stride - 1) / stride)%nat) N) cout /\
    forall ix o, inb (map (fun n => ((n + stride - 1) / stride)%nat) N ++ [cout]) (ix ++ [o]) -> get y (ix ++ [o]) = dilated_correlation N K cin rate stride (weights p) (bias p) x ix o.
Proof. exact (@conv_layer_exact_lem). Qed.
Print Assumptions conv_layer_exact.

(** C72. A convolutional tower moves along with its input: if the input is moved by a multiple of the total stride, the output is the same output moved by that many coarse cells, whatever the weights, the nonlinearity, the number of layers, their kernels, rates and strides; and two layouts of tiles that are wide enough give the same output. *)
Theorem tower_moves_along : forall cout d channels kernels rates strides outK outrate outstride nonlinearity inputs_scale output_scale ps N N' cin layout1 layout2 m1 m2,
  let layers := tower_layers (length channels) kernels rates strides (outK, (outrate, outstride)) in
  length N = d -> one_per_layer (length channels) kernels rates strides ->
  tiled_by N (layout_for N layout1) m1 -> tiles_hold m1 layers -> tiled_by N (layout_for N layout2) m2 -> tiles_hold m2 layers -> N = map (Nat.mul (total_stride layers)) N' ->
  plain_scaling d (fun x => inputs_scale x (seq 0 d)) -> plain_scaling d (fun x => output_scale x (seq 0 d)) ->
  exists T1 T2,
    forward_flex_tower cout d channels kernels rates strides outK outrate outstride (periodic_convolution_module layout1) nonlinearity inputs_scale output_scale ps = Ok T1 /\
    forward_flex_tower cout d channels kernels rates strides outK outrate outstride (periodic_convolution_module layout2) nonlinearity inputs_scale output_scale ps = Ok T2 /\
    moves_along N cin (total_stride layers) N' cout T1 T2.
Proof. exact (@tower_moves_along_lem). Qed.
Print Assumptions tower_moves_along.

(** C72. A network that moves along with its input (as towers do) maps fields that are the same everywhere to fields that are the same everywhere. *)
Theorem uniform_stays_uniform : forall N cin s N' cout T v x, moves_along N cin s N' cout T T -> length N' = length N -> (forall i, (i < length N)%nat -> (0 < nth i N 0)%nat) -> uniform N cin v x ->
  exists y v', T x = Ok y /\ uniform N' cout v' y.
Proof. exact (@uniform_stays_uniform_lem). Qed.
Print Assumptions uniform_stays_uniform.

(** C72. A tower whose channels, kernels, rates and strides do not have the same number of entries is refused when it is built. *)
Theorem conflicting_lengths_refused : forall cout d channels kernels rates strides outK outrate outstride conv nonlinearity inputs_scale output_scale ps,
  ~ one_per_layer (length channels) kernels rates strides ->
  forward_flex_tower cout d channels kernels rates strides outK outrate outstride conv nonlinearity inputs_scale output_scale ps = Err EValue.
Proof. exact (@conflicting_lengths_refused_lem). Qed.
Print Assumptions conflicting_lengths_refused.

(** C72. The layout changes the result of a strided convolution when the stride does not divide the tiles: on 6 cells, with stride 2, two tiles of three cells give 4 output cells, no tiles give 3. *)
Theorem strided_layout_refuted : exists p x y1 y2, channels_last x [6%nat] 1 /\ tiled_by [6%nat] [2%nat] [3%nat] /\ tile_holds 1 [3%nat] [3%nat] /\
  periodic_convolution_module (Some [2%nat]) p 1 [3%nat] 1 1 2 x = Ok y1 /\ periodic_convolution_module None p 1 [3%nat] 1 1 2 x = Ok y2 /\
  channels_last y1 [4%nat] 1 /\ channels_last y2 [3%nat] 1.
Proof. exact (@strided_layout_refuted_lem). Qed.
Print Assumptions strided_layout_refuted.

(** The hypotheses are met by a concrete case. *)
Example conv_layer_exact_ex : exists y, periodic_convolution_module (Some [2; 3]%nat) p33 1 [3; 3]%nat 2 1 2 x46 = Ok y /\ channels_last y [2; 3]%nat 1 /\ get y [0; 0; 0] = 61%R.
Proof. exact (@conv_layer_exact_ex_lem). Qed.

(** The hypotheses are met by a concrete case. *)
Example tower_moves_along_ex : exists T1 T2,
  forward_flex_tower 1 2 [4; 5]%nat [[3; 3]; [2; 1]]%nat (inr [1; 2]%nat) (inr [2; 1]%nat) [1; 1]%nat 1 1 (periodic_convolution_module (Some [2; 3]%nat)) (Rmax 0) no_scale no_scale (fun _ => p33) = Ok T1 /\
  forward_flex_tower 1 2 [4; 5]%nat [[3; 3]; [2; 1]]%nat (inr [1; 2]%nat) (inr [2; 1]%nat) [1; 1]%nat 1 1 (periodic_convolution_module None) (Rmax 0) no_scale no_scale (fun _ => p33) = Ok T2 /\
  moves_along [4; 6]%nat 1 2 [2; 3]%nat 1 T1 T2.
Proof. exact (@tower_moves_along_ex_lem). Qed.

(** The hypotheses are met by a concrete case. *)
Example uniform_stays_uniform_ex : exists T y v, moves_along [4; 6]%nat 1 2 [2; 3]%nat 1 T T /\ T (mkarr [4; 6; 1]%nat (fun _ => 5%R)) = Ok y /\ uniform [2; 3]%nat 1 v y.
Proof. exact (@uniform_stays_uniform_ex_lem). Qed.

(** The hypotheses are met by a concrete case. *)
Example conflicting_lengths_refused_ex : ~ one_per_layer 2 [[3; 3]; [3; 3]]%nat (inr [1; 1]%nat) (inr [1]%nat).
Proof. exact (@conflicting_lengths_refused_ex_lem). Qed.
