(** Generated by tools/gen.py from StencilLayerProps.v: property theorems only. *)
From Verif Require Import Prelude NdArr ArrayUtils_model ArrayUtilsProps Tiling_model SpecTile TilingProofs TilingProps Stencil_model SpecStencil StencilProofs StencilProps.
From Coq Require Import Qreals.
From Verif Require Import StencilLayerProps.
Local Open Scope R_scope.
Set Implicit Arguments.

(** C46. Every output of the constraint layer with its default bias gives the exact derivative at the target point of every polynomial of total degree at most accuracy_order + sum(derivative_orders) - 1, whatever the inputs (the network's output): for finite differences and finite volumes, any stencils with at least derivative order + bias accuracy order cells on each axis, any number of axes. *)
Theorem constrained_weights_exact : forall solve svd stencils orders method steps h acc bias_acc pc inputs out ix, correct_solver solve -> correct_svd svd ->
  make_constraint solve svd stencils orders method steps acc bias_acc None = Ok pc -> In h steps -> (acc <= bias_acc)%Z ->
  (forall i, (i < length stencils)%nat -> (Z.of_nat (nth i orders 0%nat) + bias_acc <= Z.of_nat (length (nth i stencils [])))%Z) -> (0 < pc_subspace_size pc)%Z ->
  constraint_call pc inputs = Ok out -> inb (removelast (shp inputs)) ix ->
  shp out = removelast (shp inputs) ++ [fold_right Nat.mul 1%nat (map (@length R) stencils)] /\
  exact_up_to (Z.to_nat (acc + Z.of_nat (fold_right Nat.add 0%nat orders) - 1)) (cell_size method h) stencils orders
    (map (fun k => get out (ix ++ [Z.of_nat k])) (seq 0 (fold_right Nat.mul 1%nat (map (@length R) stencils)))).
Proof. exact (@constrained_weights_exact_lem). Qed.
Print Assumptions constrained_weights_exact.

(** C46. With a bias supplied by the caller: if the layer accepts it, every output of the layer, whatever its input, differentiates every polynomial of that degree up to an error of 1e-8 times the sum of the absolute values of its coefficients. *)
Theorem supplied_bias_accuracy : forall solve svd stencils orders method steps h acc bias_acc bias pc inputs out ix p, correct_svd svd ->
  make_constraint solve svd stencils orders method steps acc bias_acc (Some bias) = Ok pc -> In h steps -> (0 < pc_subspace_size pc)%Z ->
  constraint_call pc inputs = Ok out -> inb (removelast (shp inputs)) ix -> degree_at_most (length stencils) (Z.to_nat (acc + Z.of_nat (fold_right Nat.add 0%nat orders) - 1)) p ->
  Rabs (stencil_sum stencils (map (fun k => get out (ix ++ [Z.of_nat k])) (seq 0 (fold_right Nat.mul 1%nat (map (@length R) stencils)))) (fun t => sample (cell_size method h) p (position stencils t)) - poly_at (derivative 0 orders p) (repeat 0 (length stencils)))
    <= / 10 ^ 8 * fold_right Rplus 0 (map (fun ae => Rabs (fst ae)) p).
Proof. exact (@supplied_bias_accuracy_lem). Qed.
Print Assumptions supplied_bias_accuracy.

(** C46. Zero inputs are mapped to the bias. *)
Theorem zero_input_gives_bias : forall pc inputs out ix k, constraint_call pc inputs = Ok out -> (forall jx, get inputs jx = 0) -> get out (ix ++ [k]) = nth (Z.to_nat k) (pc_bias pc) 0.
Proof. exact (@zero_input_gives_bias_lem). Qed.
Print Assumptions zero_input_gives_bias.

(** C46. The default bias passes the layer's own check: whenever the constraints and the default coefficients can be computed, the accuracy of the bias is at least that of the constraints, the stencils are large enough and the solution is not unique, the layer is constructed, with this bias and subspace size columns minus rows. *)
Theorem default_bias_accepted : forall solve svd stencils orders method h steps acc bias_acc A b g, correct_solver solve -> (forall s, In s steps -> s = h) -> steps <> [] ->
  polynomial_accuracy_constraints stencils method orders acc (Some h) = Ok (A, b) -> polynomial_accuracy_coefficients solve stencils method orders (Some bias_acc) (Some h) = Ok g -> (acc <= bias_acc)%Z ->
  (forall i, (i < length stencils)%nat -> (Z.of_nat (nth i orders 0%nat) + bias_acc <= Z.of_nat (length (nth i stencils [])))%Z) -> length A <> fold_right Nat.mul 1%nat (map (@length R) stencils) ->
  exists pc, make_constraint solve svd stencils orders method steps acc bias_acc None = Ok pc /\ pc_bias pc = ravel g /\ pc_subspace_size pc = (Z.of_nat (fold_right Nat.mul 1%nat (map (@length R) stencils)) - Z.of_nat (length A))%Z.
Proof. exact (@default_bias_accepted_lem). Qed.
Print Assumptions default_bias_accepted.

(** C46. The layer refuses steps that are not all equal (and an empty tuple of steps), an accuracy order below one, a number of derivative orders different from the number of stencils, and a problem with only one solution; and it refuses inputs whose last dimension is not the subspace size. *)
Theorem layer_refuses : forall solve svd stencils orders method steps acc bias_acc bias,
  ((forall h, In h steps -> exists s, In s steps /\ s <> h) -> make_constraint solve svd stencils orders method steps acc bias_acc bias = Err EValue) /\
  ((acc < 1)%Z \/ length stencils <> length orders -> forall pc, make_constraint solve svd stencils orders method steps acc bias_acc bias <> Ok pc) /\
  (forall h A b, In h steps -> polynomial_accuracy_constraints stencils method orders acc (Some h) = Ok (A, b) -> length A = fold_right Nat.mul 1%nat (map (@length R) stencils) -> forall pc, make_constraint solve svd stencils orders method steps acc bias_acc bias <> Ok pc) /\
  (correct_svd svd -> forall pc inputs N k, make_constraint solve svd stencils orders method steps acc bias_acc bias = Ok pc -> (0 < pc_subspace_size pc)%Z -> shp inputs = N ++ [k] -> Z.of_nat k <> pc_subspace_size pc -> constraint_call pc inputs = Err EType).
Proof. exact (@layer_refuses_lem). Qed.
Print Assumptions layer_refuses.

(** C46. get_roll_and_shift splits the displacement between the offsets into whole cells and a fraction: the shift is in [0, 1) and shift minus roll is the displacement, on every axis. *)
Theorem roll_and_shift : forall input target i, (i < length input)%nat -> length target = length input ->
  (0 <= nth i (snd (get_roll_and_shift input target)) 0 < 1)%Q /\
  (nth i (snd (get_roll_and_shift input target)) 0 - inject_Z (nth i (fst (get_roll_and_shift input target)) 0%Z) == nth i target 0 - nth i input 0)%Q.
Proof. exact (@roll_and_shift_lem). Qed.
Print Assumptions roll_and_shift.

(** The hypotheses are met by a concrete case. *)
Example roll_and_shift_ex : get_roll_and_shift [1; 1 # 2]%Q [1 # 2; 1]%Q = ([1%Z; 0%Z], [1 # 2; 1 # 2]%Q).
Proof. exact (@roll_and_shift_ex_lem). Qed.

(** C46. The stencil built for a pair of offsets consists of the true positions, relative to the target point, of the cells that roll and patch extraction deliver: cell t of a patch lies t - (size - 1) // 2 cells after the input cell just before the target. *)
Theorem stencil_positions : forall S input target steps h t, length input = length S -> length target = length S -> steps = repeat h (length S) -> (forall i, (i < length S)%nat -> (0 < nth i S 0)%nat) -> inb S t ->
  position (get_stencils S (snd (get_roll_and_shift input target)) steps) t = relative_position S input target h t.
Proof. exact (@stencil_positions_lem). Qed.
Print Assumptions stencil_positions.

(** The hypotheses are met by a concrete case. *)
Example stencil_positions_ex : position (get_stencils [4%nat] (snd (get_roll_and_shift [1 # 2]%Q [1]%Q)) [2]) [1%Z] = [-1].
Proof. exact (@stencil_positions_ex_lem). Qed.

(** C46. The derivative layer always runs on logits with the grid's shape and as many channels as the subspace size (given a known patch method and tiles at least half a stencil wide), and refuses logits with another number of channels. *)
Theorem derivative_layer_runs : forall solve svd S input target orders steps h pmethod layout method sd (x logits : arr R) N k, correct_svd svd ->
  length S = length N -> length input = length N -> length target = length N -> steps = repeat h (length N) -> (forall i, (i < length N)%nat -> (0 < nth i N 0 /\ 0 < nth i S 0)%nat) -> pmethod <> POther ->
  (pmethod = PConv -> exists m, tiled_by N (match layout with Some L => L | None => repeat 1%nat (length N) end) m /\ forall i, (i < length N)%nat -> (nth i S 0 / 2 <= nth i m 0)%nat) ->
  make_spatial_derivative solve svd S input target orders steps pmethod layout method = Ok sd -> channels_last x N 1 -> shp logits = N ++ [k] ->
  (Z.of_nat k = pc_subspace_size (sd_constraint sd) -> exists y, sd_call sd x logits = Ok y) /\ (Z.of_nat k <> pc_subspace_size (sd_constraint sd) -> sd_call sd x logits = Err EValue).
Proof. exact (@derivative_layer_runs_lem). Qed.
Print Assumptions derivative_layer_runs.

(** C46. The learned derivative layer is exact: whatever the logits, the patch method and the tile layout, if the cells of the input around the target point hold the samples (point values or cell averages) of a polynomial of total degree at most sum(derivative_orders), the output at this cell is the exact derivative of the polynomial at the target point. Proved for one-dimensional inputs with any offsets and, in any dimension, for offsets less than one cell apart in the positive direction (the layer's roll is then zero). *)
Theorem derivative_layer_exact : forall solve svd S input target orders steps h pmethod layout method sd (x logits y : arr R) N ix p, correct_solver solve -> correct_svd svd ->
  length S = length N -> length input = length N -> length target = length N -> steps = repeat h (length N) -> (forall i, (i < length N)%nat -> (0 < nth i N 0)%nat /\ (nth i orders 0 + 1 <= nth i S 0)%nat) ->
  (length N = 1%nat \/ forall i, (i < length N)%nat -> (0 <= nth i target 0 - nth i input 0 < 1)%Q) ->
  (pmethod = PConv -> exists m, tiled_by N (match layout with Some L => L | None => repeat 1%nat (length N) end) m /\ forall i, (i < length N)%nat -> (nth i S 0 / 2 <= nth i m 0)%nat) ->
  make_spatial_derivative solve svd S input target orders steps pmethod layout method = Ok sd -> channels_last x N 1 -> sd_call sd x logits = Ok y -> inb N ix ->
  degree_at_most (length N) (fold_right Nat.add 0%nat orders) p -> (forall t, inb S t -> get x (neighbour N S input target ix t ++ [0%Z]) = sample (cell_size method h) p (relative_position S input target h t)) ->
  channels_last y N 1 /\ get y (ix ++ [0%Z]) = poly_at (derivative 0 orders p) (repeat 0 (length N)).
Proof. exact (@derivative_layer_exact_lem). Qed.
Print Assumptions derivative_layer_exact.

(** The hypotheses are met by a concrete case. *)
Example default_bias_accepted_ex : exists pc, make_constraint ts3 sv3 [[-1; 0; 1]] [1%nat] FiniteDifference [1] 1 1 None = Ok pc /\ pc_subspace_size pc = 1%Z.
Proof. exact (@default_bias_accepted_ex_lem). Qed.

(** The hypotheses are met by a concrete case. *)
Example constrained_weights_exact_ex : exists pc out, make_constraint ts3 sv3 [[-1; 0; 1]] [1%nat] FiniteDifference [1] 1 1 None = Ok pc /\ constraint_call pc (mkarr [1%nat] (fun _ => 7)) = Ok out /\ exact_up_to 1 None [[-1; 0; 1]] [1%nat] [get out [0%Z]; get out [1%Z]; get out [2%Z]].
Proof. exact (@constrained_weights_exact_ex_lem). Qed.

(** The hypotheses are met by a concrete case. *)
Example zero_input_gives_bias_ex : exists pc out, make_constraint ts3 sv3 [[-1; 0; 1]] [1%nat] FiniteDifference [1] 1 1 None = Ok pc /\ constraint_call pc (mkarr [1%nat] (fun _ => 0)) = Ok out /\ get out [2%Z] = nth 2 (pc_bias pc) 0.
Proof. exact (@zero_input_gives_bias_ex_lem). Qed.

(** The hypotheses are met by a concrete case. *)
Example layer_refuses_ex : make_constraint ts3 sv3 [[-1; 0; 1]] [1%nat] FiniteDifference [1; 2] 1 1 None = Err EValue.
Proof. exact (@layer_refuses_ex_lem). Qed.

(** The hypotheses are met by a concrete case. *)
Example supplied_bias_accuracy_ex : exists pc out, make_constraint ts3 sv3 [[-1; 0; 1]] [1%nat] FiniteDifference [1] 1 1 (Some [0; -1; 1]) = Ok pc /\ constraint_call pc (mkarr [1%nat] (fun _ => 5)) = Ok out /\
  Rabs (stencil_sum [[-1; 0; 1]] (map (fun k => get out ([] ++ [Z.of_nat k])) (seq 0 3)) (fun t => sample None [(3, [1%nat])] (position [[-1; 0; 1]] t)) - poly_at (derivative 0 [1%nat] [(3, [1%nat])]) [0]) <= / 10 ^ 8 * (Rabs 3 + 0).
Proof. exact (@supplied_bias_accuracy_ex_lem). Qed.

(** The hypotheses are met by a concrete case. *)
Example derivative_layer_runs_ex : exists sd y, make_spatial_derivative ts3 sv3 [3%nat] [1 # 2]%Q [1 # 2]%Q [1%nat] [1] PRoll None FiniteDifference = Ok sd /\ sd_call sd (mkarr [5%nat; 1%nat] (fun ix => IZR (nth 0 ix 0%Z))) (mkarr [5%nat; 1%nat] (fun ix => IZR (nth 0 ix 0%Z * nth 0 ix 0%Z))) = Ok y.
Proof. exact (@derivative_layer_runs_ex_lem). Qed.

(** The hypotheses are met by a concrete case. *)
Example derivative_layer_exact_ex : exists sd y, make_spatial_derivative ts3 sv3 [3%nat] [1 # 2]%Q [1 # 2]%Q [1%nat] [1] PRoll None FiniteDifference = Ok sd /\ sd_call sd (mkarr [5%nat; 1%nat] (fun ix => IZR (nth 0 ix 0%Z))) (mkarr [5%nat; 1%nat] (fun ix => IZR (nth 0 ix 0%Z * nth 0 ix 0%Z))) = Ok y /\ get y [2%Z; 0%Z] = 1.
Proof. exact (@derivative_layer_exact_ex_lem). Qed.

(** C46. The constraint layer does not guarantee its accuracy when the requested order exceeds what the stencil can parametrize: the check for a unique solution only compares the numbers of rows and columns for equality. On the stencil -1/2, 0, 1/2 with order 0 and accuracy order 4 there are four constraints for three coefficients (so the documented guarantee of no more rows than columns fails too); the layer is constructed with a negative subspace size, accepts inputs with two channels, and its outputs violate the constraints, for every singular value decomposition with non-zero rows. *)
Theorem overdetermined_layer_refuted : forall solve svd, correct_svd svd -> (forall A v, In v (svd A) -> exists k, nth k v 0 <> 0) ->
  exists pc A b out, polynomial_accuracy_constraints [[- / 2; 0; / 2]] FiniteDifference [0%nat] 4 (Some 1) = Ok (A, b) /\ length A = 4%nat /\
    make_constraint solve svd [[- / 2; 0; / 2]] [0%nat] FiniteDifference [1] 4 1 (Some [0; 1; 0]) = Ok pc /\ pc_subspace_size pc = (-1)%Z /\
    constraint_call pc (mkarr [2%nat] (fun ix => if (nth 0 ix 0 =? 0)%Z then 1 else 0)) = Ok out /\ ~ exact_up_to 3 None [[- / 2; 0; / 2]] [0%nat] [get out [0%Z]; get out [1%Z]; get out [2%Z]].
Proof. exact (@overdetermined_layer_refuted_lem). Qed.
Print Assumptions overdetermined_layer_refuted.

(** C46. In two or more dimensions the derivative layer is not exact when the offsets require a roll: the input is rolled without an axis, that is, flattened. Interpolating from offset (1, 1/2) to (1/2, 1/2) on a 2 x 2 grid, the cells next to the target hold a constant 1 but the output is 0, because the layer reads the column before. *)
Theorem roll_without_axis_refuted : exists solve svd sd y, correct_solver solve /\ correct_svd svd /\
  make_spatial_derivative solve svd [2%nat; 1%nat] [1; 1 # 2]%Q [1 # 2; 1 # 2]%Q [0%nat; 0%nat] [1; 1] PRoll None FiniteDifference = Ok sd /\
  channels_last x21 [2%nat; 2%nat] 1 /\ sd_call sd x21 (mkarr [2%nat; 2%nat; 1%nat] (fun _ => 0)) = Ok y /\
  (forall t, inb [2%nat; 1%nat] t -> get x21 (neighbour [2%nat; 2%nat] [2%nat; 1%nat] [1; 1 # 2]%Q [1 # 2; 1 # 2]%Q [1%Z; 1%Z] t ++ [0%Z]) = sample None [(1, [0%nat; 0%nat])] (relative_position [2%nat; 1%nat] [1; 1 # 2]%Q [1 # 2; 1 # 2]%Q 1 t)) /\
  get y [1%Z; 1%Z; 0%Z] = 0 /\ poly_at (derivative 0 [0%nat; 0%nat] [(1, [0%nat; 0%nat])]) [0; 0] = 1.
Proof. exact (@roll_without_axis_refuted_lem). Qed.
Print Assumptions roll_without_axis_refuted.
