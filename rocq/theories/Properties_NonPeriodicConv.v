(** Generated by tools/gen.py from NonPeriodicConvProps.v: property theorems only. *)
From Verif Require Import Prelude NdArr ArrayUtils_model Tiling_model Equations_model Towers_model SpecTile SpecTower TilingProofs TilingProps TowerProps MirrorConv_model NonPeriodicConv_model.
From Verif Require Import NonPeriodicConvProps.
Local Open Scope Z_scope.
Set Implicit Arguments.

(** C95. A non-periodic convolution layer (any number of axes, kernel, dilation rate, stride and weights) on an array into which the kernel fits: the result has as many cells per axis as there are positions of the kernel inside the array; every entry is the correlation of the array with the weights at that position, plus the bias. *)
Theorem non_periodic_conv_exact : forall p N K cin cout rate stride x, channels_last x N cin -> kernel_fits rate stride K N ->
  exists y, non_periodic_conv_general (length K) p cout K rate stride x = Ok y /\ channels_last y (positions rate stride K N) cout /\
    forall ix o, inb (positions rate stride K N ++ [cout]) (ix ++ [o]) -> get y (ix ++ [o]) = inner_correlation K cin rate stride (weights p) (bias p) x ix o.
Proof. exact (@non_periodic_conv_exact_lem). Qed.
Print Assumptions non_periodic_conv_exact.

(** The hypotheses are met by a concrete case. *)
Example non_periodic_conv_exact_ex : exists y, non_periodic_conv_1d three_taps 1 [3%nat] 1 1 five_cells = Ok y /\ shp y = [3; 1]%nat /\ get y [1; 0] = 6%R.
Proof. exact (@non_periodic_conv_exact_ex_lem). Qed.

(** C95. Non-periodic convolutions are local: on any part of an array into which the kernel still fits and which starts at a multiple of the stride, the layer returns the same part of what it returns for the whole array. *)
Theorem non_periodic_conv_local : forall p N K cin cout rate stride x w s M y, channels_last x N cin -> kernel_fits rate stride K N -> kernel_fits rate stride K M ->
  length s = length K -> (forall i, (i < length K)%nat -> 0 <= nth i s 0 /\ Z.of_nat stride * nth i s 0 + Z.of_nat (nth i M 0%nat) <= Z.of_nat (nth i N 0%nat)) ->
  part_of x w (map (Z.mul (Z.of_nat stride)) s) M cin ->
  non_periodic_conv_general (length K) p cout K rate stride x = Ok y ->
  exists v, non_periodic_conv_general (length K) p cout K rate stride w = Ok v /\ part_of y v s (positions rate stride K M) cout.
Proof. exact (@non_periodic_conv_local_lem). Qed.
Print Assumptions non_periodic_conv_local.

(** The hypotheses are met by a concrete case. *)
Example non_periodic_conv_local_ex : kernel_fits 1 1 [3%nat] [5%nat] /\ kernel_fits 1 1 [3%nat] [4%nat] /\
  part_of five_cells (mkarr [4; 1]%nat (fun ix => (IZR (nth 0 ix 0%Z) + 1)%R)) (map (Z.mul 1) [1]) [4%nat] 1.
Proof. exact (@non_periodic_conv_local_ex_lem). Qed.
