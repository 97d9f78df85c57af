(** Generated by tools/gen.py from TConvProps.v: property theorems only. *)
From Verif Require Import Prelude NdArr ArrayUtils_model Tiling_model Equations_model Towers_model TConv_model SpecTile SpecTower SpecTConv TilingProofs TilingProps TowerProps TowerMoreProps.
From Verif Require Import TConvProps.
Local Open Scope Z_scope.
Set Implicit Arguments.

(** C73. A periodic transpose convolution of stride s refines the grid by s and computes the exact circular correlation, at every fine cell, of the input put at every s-th fine cell (zero in between) with the weights, centred with the larger half before the centre, plus the bias; for one to three axes, every kernel and stride with kernel // stride < axis size. *)
Theorem transpose_layer_exact : forall (p : params) (N K : list nat) (cin cout stride : nat) (rate : option nat) (x : arr R), channels_last x N cin -> kernel_fits stride N K -> (rate = None \/ rate = Some 1%nat) ->
  exists y, periodic_transpose_convolution None p cout K (length N) rate stride x = Ok y /\ channels_last y (map (Nat.mul stride) N) cout /\
    forall ix o, inb (map (Nat.mul stride) N ++ [cout]) (ix ++ [o]) ->
      get y (ix ++ [o]) = dilated_correlation (map (Nat.mul stride) N) K cin 1 1 (swap_channels (length N) (weights p)) (bias p) (spread_out stride N cin x) ix o.
Proof. exact (@transpose_layer_exact_lem). Qed.
Print Assumptions transpose_layer_exact.

(** The hypotheses are met by a concrete case. *)
Example transpose_layer_exact_ex : channels_last x46 [4; 6]%nat 1 /\ kernel_fits 2 [4; 6]%nat [3; 5]%nat.
Proof. exact (@transpose_layer_exact_ex_lem). Qed.
