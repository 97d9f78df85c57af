(** Generated by tools/gen.py from TilingProps.v: property theorems only. *)
From Verif Require Import Prelude NdArr ArrayUtils_model ArrayUtilsProps ResizeProps Tiling_model SpecTile TilingProofs.
From Verif Require Import TilingProps.
Local Open Scope Z_scope.
Set Implicit Arguments.

(** C45. Splitting a periodic array into tiles and putting the tiles back changes nothing: when the layout divides the array, tile b holds at position j the cell b * tile size + j, and batch_to_space undoes space_to_batch. *)
Theorem tiles_are_blocks : forall A (x : arr A) N L m c, channels_last x N c -> tiled_by N L m ->
  exists t, space_to_batch x L = Ok t /\ shp t = fold_right Nat.mul 1%nat L :: m ++ [c] /\
    (forall b j cc, inb L b -> inb m j -> 0 <= cc < Z.of_nat c -> get t (tile_number L b :: j ++ [cc]) = get x (cell_of N m (repeat 0%nat (length N)) b j ++ [cc])) /\
    exists y, batch_to_space t L = Ok y /\ aeq y x.
Proof. exact (@tiles_are_blocks_lem). Qed.
Print Assumptions tiles_are_blocks.

(** C45. Putting tiles together and splitting the result into tiles again gives back the tiles. *)
Theorem tiles_back_and_forth : forall A (t : arr A) N L m c, tiled_by N L m -> shp t = fold_right Nat.mul 1%nat L :: m ++ [c] ->
  exists x, batch_to_space t L = Ok x /\ channels_last x N c /\ exists y, space_to_batch x L = Ok y /\ aeq y t.
Proof. exact (@tiles_back_and_forth_lem). Qed.
Print Assumptions tiles_back_and_forth.

(** C45. A layout that does not divide the array is refused. *)
Theorem bad_layout_refused : forall A (x : arr A) N L c i, channels_last x N c -> (1 <= length L <= 3)%nat -> length N = length L -> Forall (fun l => (0 < l)%nat) L ->
  (i < length L)%nat -> ~ Nat.divide (nth i L 0%nat) (nth i N 0%nat) -> space_to_batch x L = Err EShape.
Proof. exact (@bad_layout_refused_lem). Qed.
Print Assumptions bad_layout_refused.

(** C45. Halo exchange: after padding, every tile is a window of the whole periodic array: position j of tile b is the cell b * tile size + j - left padding of the untiled array, taken periodically (so corners too), provided no padding exceeds a tile. *)
Theorem halo_is_window : forall A (t : arr A) N L m c P, tiled_by N L m -> shp t = fold_right Nat.mul 1%nat L :: m ++ [c] -> length P = length L ->
  (forall i, (i < length L)%nat -> (fst (nth i P (0, 0)) <= nth i m 0 /\ snd (nth i P (0, 0)) <= nth i m 0)%nat) ->
  exists x t', batch_to_space t L = Ok x /\ halo_exchange_pad t L P = Ok t' /\
    shp t' = fold_right Nat.mul 1%nat L :: map (fun i => (nth i m 0 + fst (nth i P (0, 0)) + snd (nth i P (0, 0)))%nat) (seq 0 (length L)) ++ [c] /\
    forall b j cc, inb L b -> inb (shp t') (tile_number L b :: j ++ [cc]) ->
      get t' (tile_number L b :: j ++ [cc]) = get x (cell_of N m (map fst P) b j ++ [cc]).
Proof. exact (@halo_is_window_lem). Qed.
Print Assumptions halo_is_window.

(** C45. Halo exchange refuses a padding larger than a tile instead of returning values from the wrong tile. *)
Theorem halo_too_wide_refused : forall A (t : arr A) N L m c P i, tiled_by N L m -> shp t = fold_right Nat.mul 1%nat L :: m ++ [c] -> length P = length L ->
  (i < length L)%nat -> (nth i m 0 < fst (nth i P (0, 0)) \/ nth i m 0 < snd (nth i P (0, 0)))%nat -> halo_exchange_pad t L P = Err EType.
Proof. exact (@halo_too_wide_refused_lem). Qed.
Print Assumptions halo_too_wide_refused.

(** C45. Applying any convolution-like operation (anything that maps every window of K cells of a batch entry to an output cell) through tiles gives, at every cell, the operation applied to the periodic window around this cell of the untiled array: the result does not depend on the layout. *)
Theorem tiled_convolution : forall A (conv : arr A -> result (arr A)) K cin cout Phi (x : arr A) N L m P, acts_on_windows conv K cin cout Phi -> channels_last x N cin -> tiled_by N L m ->
  length K = length L -> length P = length L -> (forall i, (i < length L)%nat -> (fst (nth i P (0, 0)) + snd (nth i P (0, 0)) + 1 = nth i K 0)%nat) ->
  (forall i, (i < length L)%nat -> (fst (nth i P (0, 0)) <= nth i m 0 /\ snd (nth i P (0, 0)) <= nth i m 0)%nat) -> (forall i, (i < length N)%nat -> (0 < nth i N 0)%nat) ->
  exists y, apply_convolution conv x (Some L) P = Ok y /\ channels_last y N cout /\
    forall ix o, inb (N ++ [cout]) (ix ++ [o]) -> get y (ix ++ [o]) = Phi (fun t cc => get x (cell_at N (map fst P) ix t ++ [cc])) o.
Proof. exact (@tiled_convolution_lem). Qed.
Print Assumptions tiled_convolution.

(** C45. Periodic convolution is the exact circular cross-correlation of the untiled array with the kernel, centred with one cell more after the centre than before it for even sizes, for every layout whose tiles are at least half a kernel wide (without a layout: the whole array). *)
Theorem periodic_convolution_exact : forall (x kernel : arr R) N K cin cout layout m, channels_last x N cin -> shp kernel = K ++ [cin; cout] ->
  length K = length N -> (forall i, (i < length N)%nat -> (0 < nth i N 0 /\ 0 < nth i K 0)%nat) -> tiled_by N (match layout with Some L => L | None => repeat 1%nat (length N) end) m ->
  (forall i, (i < length N)%nat -> (nth i K 0 / 2 <= nth i m 0)%nat) ->
  exists y, periodic_convolution x kernel layout = Ok y /\ channels_last y N cout /\
    forall ix o, inb (N ++ [cout]) (ix ++ [o]) -> get y (ix ++ [o]) = correlate N K cin x kernel ix o.
Proof. exact (@periodic_convolution_exact_lem). Qed.
Print Assumptions periodic_convolution_exact.

(** C45. The layout does not change the result of a periodic convolution: two layouts whose tiles are wide enough (or no layout) give the same array. *)
Theorem layout_irrelevant : forall (x kernel : arr R) N K cin cout layout1 layout2 m1 m2, channels_last x N cin -> shp kernel = K ++ [cin; cout] ->
  length K = length N -> (forall i, (i < length N)%nat -> (0 < nth i N 0 /\ 0 < nth i K 0)%nat) ->
  tiled_by N (match layout1 with Some L => L | None => repeat 1%nat (length N) end) m1 -> tiled_by N (match layout2 with Some L => L | None => repeat 1%nat (length N) end) m2 ->
  (forall i, (i < length N)%nat -> (nth i K 0 / 2 <= nth i m1 0 /\ nth i K 0 / 2 <= nth i m2 0)%nat) ->
  exists y1 y2, periodic_convolution x kernel layout1 = Ok y1 /\ periodic_convolution x kernel layout2 = Ok y2 /\ aeq y1 y2.
Proof. exact (@layout_irrelevant_lem). Qed.
Print Assumptions layout_irrelevant.

(** C45. A periodic convolution whose kernel reaches over more than one neighbouring tile is refused. *)
Theorem kernel_too_wide_refused : forall (x kernel : arr R) N K cin cout layout m i, channels_last x N cin -> shp kernel = K ++ [cin; cout] ->
  length K = length N -> tiled_by N (match layout with Some L => L | None => repeat 1%nat (length N) end) m ->
  (i < length N)%nat -> (nth i m 0 < nth i K 0 / 2)%nat -> periodic_convolution x kernel layout = Err EType.
Proof. exact (@kernel_too_wide_refused_lem). Qed.
Print Assumptions kernel_too_wide_refused.

(** C45. Patches by rolling: channel t of cell ix is the periodic neighbour of ix at offset t - (size-1)/2 on every axis, for any number of axes and any patch sizes (row-major channel order). *)
Theorem roll_patches : forall (x : arr R) N S layout, channels_last x N 1 -> length S = length N -> (forall i, (i < length N)%nat -> (0 < nth i S 0)%nat) ->
  exists y, extract_patches x S PRoll layout = Ok y /\ channels_last y N (fold_right Nat.mul 1%nat S) /\
    forall ix t, inb N ix -> inb S t -> get y (ix ++ [tile_number S t]) = get x (cell_at N (map before S) ix t ++ [0]).
Proof. exact (@roll_patches_lem). Qed.
Print Assumptions roll_patches.

(** C45. Patches by convolution: the same array as by rolling, through every layout whose tiles are at least half a patch wide. *)
Theorem conv_patches_are_roll_patches : forall (x : arr R) N S layout m, channels_last x N 1 -> length S = length N -> (forall i, (i < length N)%nat -> (0 < nth i N 0 /\ 0 < nth i S 0)%nat) ->
  tiled_by N (match layout with Some L => L | None => repeat 1%nat (length N) end) m -> (forall i, (i < length N)%nat -> (nth i S 0 / 2 <= nth i m 0)%nat) ->
  exists y1 y2, extract_patches x S PConv layout = Ok y1 /\ extract_patches x S PRoll layout = Ok y2 /\ aeq y1 y2 /\
    forall ix t, inb N ix -> inb S t -> get y1 (ix ++ [tile_number S t]) = get x (cell_at N (map before S) ix t ++ [0]).
Proof. exact (@conv_patches_are_roll_patches_lem). Qed.
Print Assumptions conv_patches_are_roll_patches.

(** C45. Fused patch extraction for several equal patch shapes: block q of the channels holds the patches, as if extracted on their own. *)
Theorem fused_patches_same_shape : forall (x : arr R) N S n layout m, channels_last x N 1 -> length S = length N -> (0 < n)%nat -> (forall i, (i < length N)%nat -> (0 < nth i N 0 /\ 0 < nth i S 0)%nat) ->
  tiled_by N (match layout with Some L => L | None => repeat 1%nat (length N) end) m -> (forall i, (i < length N)%nat -> (nth i S 0 / 2 <= nth i m 0)%nat) ->
  exists y, fused_extract_patches x (repeat S n) layout = Ok y /\ channels_last y N (n * fold_right Nat.mul 1%nat S) /\
    forall ix q t, inb N ix -> 0 <= q < Z.of_nat n -> inb S t -> get y (ix ++ [q * Z.of_nat (fold_right Nat.mul 1%nat S) + tile_number S t]) = get x (cell_at N (map before S) ix t ++ [0]).
Proof. exact (@fused_patches_same_shape_lem). Qed.
Print Assumptions fused_patches_same_shape.

(** C45. Fused patch extraction for patches of different shapes always fails, since the kernels cannot be concatenated: the fusion the function exists for is limited to equal shapes. *)
Theorem fused_patches_mixed_shapes_fail : forall (x : arr R) S0 S1 rest layout, S0 <> S1 -> fused_extract_patches x (S0 :: S1 :: rest) layout = Err EType.
Proof. exact (@fused_patches_mixed_shapes_fail_lem). Qed.
Print Assumptions fused_patches_mixed_shapes_fail.

(** The hypotheses are met by a concrete case. *)
Example tiles_are_blocks_ex : exists t, space_to_batch x46 [2; 3]%nat = Ok t /\ get t [5; 1; 0; 0] = 22%R.
Proof. exact (@tiles_are_blocks_ex_lem). Qed.

(** The hypotheses are met by a concrete case. *)
Example tiles_back_and_forth_ex : exists x, batch_to_space (mkarr [6; 2; 2; 1]%nat (fun ix => IZR (nth 0 ix 0))) [2; 3]%nat = Ok x /\ channels_last x [4; 6]%nat 1.
Proof. exact (@tiles_back_and_forth_ex_lem). Qed.

(** The hypotheses are met by a concrete case. *)
Example bad_layout_refused_ex : space_to_batch x46 [3; 2]%nat = Err EShape.
Proof. exact (@bad_layout_refused_ex_lem). Qed.

(** The hypotheses are met by a concrete case. *)
Example halo_is_window_ex : exists t t', space_to_batch x46 [2; 3]%nat = Ok t /\ halo_exchange_pad t [2; 3]%nat [(1, 1); (2, 0)]%nat = Ok t' /\ get t' [0; 0; 1; 0] = 23%R.
Proof. exact (@halo_is_window_ex_lem). Qed.

(** The hypotheses are met by a concrete case. *)
Example halo_too_wide_refused_ex : halo_exchange_pad (mkarr [6; 2; 2; 1]%nat (fun _ => 0%R)) [2; 3]%nat [(1, 1); (0, 3)]%nat = Err EType.
Proof. exact (@halo_too_wide_refused_ex_lem). Qed.

(** The hypotheses are met by a concrete case. *)
Example tiled_convolution_ex : exists y, apply_convolution (conv_valid k33) x46 (Some [2; 3]%nat) [(1, 1); (1, 1)]%nat = Ok y /\ channels_last y [4; 6]%nat 1.
Proof. exact (@tiled_convolution_ex_lem). Qed.

(** The hypotheses are met by a concrete case. *)
Example periodic_convolution_exact_ex : exists y, periodic_convolution x46 k33 (Some [2; 3]%nat) = Ok y /\ get y [0; 0; 0] = 54%R.
Proof. exact (@periodic_convolution_exact_ex_lem). Qed.

(** The hypotheses are met by a concrete case. *)
Example layout_irrelevant_ex : exists y1 y2, periodic_convolution x46 k33 (Some [2; 3]%nat) = Ok y1 /\ periodic_convolution x46 k33 None = Ok y2 /\ aeq y1 y2.
Proof. exact (@layout_irrelevant_ex_lem). Qed.

(** The hypotheses are met by a concrete case. *)
Example kernel_too_wide_refused_ex : periodic_convolution x46 (mkarr [6; 3; 1; 1]%nat (fun _ => 1%R)) (Some [2; 3]%nat) = Err EType.
Proof. exact (@kernel_too_wide_refused_ex_lem). Qed.

(** The hypotheses are met by a concrete case. *)
Example roll_patches_ex : exists y, extract_patches x46 [3; 2]%nat PRoll None = Ok y /\ get y [0; 0; 1] = 19%R.
Proof. exact (@roll_patches_ex_lem). Qed.

(** The hypotheses are met by a concrete case. *)
Example conv_patches_are_roll_patches_ex : exists y1 y2, extract_patches x46 [3; 2]%nat PConv (Some [2; 3]%nat) = Ok y1 /\ extract_patches x46 [3; 2]%nat PRoll (Some [2; 3]%nat) = Ok y2 /\ aeq y1 y2.
Proof. exact (@conv_patches_are_roll_patches_ex_lem). Qed.

(** The hypotheses are met by a concrete case. *)
Example fused_patches_same_shape_ex : exists y, fused_extract_patches x46 [[3; 2]; [3; 2]]%nat (Some [2; 3]%nat) = Ok y /\ get y [0; 0; 7] = 19%R.
Proof. exact (@fused_patches_same_shape_ex_lem). Qed.

(** The hypotheses are met by a concrete case. *)
Example fused_patches_mixed_shapes_fail_ex : fused_extract_patches x46 [[3; 1]; [1; 3]]%nat None = Err EType.
Proof. exact (@fused_patches_mixed_shapes_fail_ex_lem). Qed.
