(** Generated by tools/gen.py from TowerMoreProps.v: property theorems only. *)
From Verif Require Import Prelude NdArr ArrayUtils_model Tiling_model Equations_model Towers_model SpecTile SpecTower SpecLInt TilingProofs TilingProps EquationsMoreProps TowerProps.
From Verif Require Import TowerMoreProps.
Local Open Scope Z_scope.
Set Implicit Arguments.

(** C72. Rescaling to a range: in every slice along the given axes that is not constant, the values end up between min_value and max_value, in the same order, and both ends are reached. *)
Theorem rescale_range : forall x lo hi axes, (lo < hi)%R -> (forall i, In i axes -> (i < length (shp x))%nat /\ (0 < nth i (shp x) 0)%nat) ->
  exists y, rescale_to_range x lo hi axes = Ok y /\ shp y = shp x /\
    forall ix jx, same_slice (shp x) axes ix jx -> get x ix <> get x jx ->
      (lo <= get y ix <= hi)%R /\ (get x ix <= get x jx <-> get y ix <= get y jx)%R /\
      (exists kx, same_slice (shp x) axes ix kx /\ get y kx = lo) /\ (exists kx, same_slice (shp x) axes ix kx /\ get y kx = hi).
Proof. exact (@rescale_range_lem). Qed.
Print Assumptions rescale_range.

(** C72. The scalings that come with towers (none, by a fixed factor, to a range over all of space) keep the shape and do not care where on the grid things are. *)
Theorem scalings_are_plain : forall d s lo hi, plain_scaling d (fun x => no_scale x (seq 0 d)) /\ plain_scaling d (fun x => fixed_scale s x (seq 0 d)) /\ plain_scaling d (fun x => scale_to_range lo hi x (seq 0 d)).
Proof. exact (@scalings_are_plain_lem). Qed.
Print Assumptions scalings_are_plain.

(** C72. The standard tower (any number of hidden layers and channels, any kernel size, dilation rate, nonlinearity and weights, stride one) keeps the grid: on every grid of one to three axes that is at least half a dilated kernel wide it returns the requested number of channels over the same grid, and moves along with its input. *)
Theorem standard_tower_keeps_grid : forall d hidden kernel_size n rate output_kernel output_rate nonlinearity inputs_scale output_scale ps N, (1 <= d <= 3)%nat -> length N = d ->
  (0 < rate)%nat -> (0 < kernel_size)%nat -> (0 < output_rate)%nat -> (0 < output_kernel)%nat ->
  (forall i, (i < d)%nat -> (0 < nth i N 0 /\ span rate kernel_size / 2 <= nth i N 0 /\ span output_rate output_kernel / 2 <= nth i N 0)%nat) ->
  plain_scaling d (fun x => inputs_scale x (seq 0 d)) -> plain_scaling d (fun x => output_scale x (seq 0 d)) ->
  let tower := fun cout x => let* T := forward_tower cout d hidden kernel_size n (inl rate) (inl 1%nat) output_kernel output_rate 1 (periodic_convolution_module None) nonlinearity inputs_scale output_scale ps in T x in
  forall cin, keeps_grid N cin tower /\ forall cout, moves_along N cin 1 N cout (tower cout) (tower cout).
Proof. exact (@standard_tower_keeps_grid_lem). Qed.
Print Assumptions standard_tower_keeps_grid.

(** C72. A tower of residual blocks keeps the grid and moves along with its input if its blocks and skip connections do, for any number of blocks: every block adds its output to its skip connection. *)
Theorem residual_tower_moves_along : forall N w cin cout num_blocks block1 block2 skip1 skip2 inputs_scale output_scale, (forall i, (i < length N)%nat -> (0 < nth i N 0)%nat) ->
  (forall i n c, exists B1 B2, block1 i n = Ok B1 /\ block2 i n = Ok B2 /\ moves_along N c 1 N n B1 B2) ->
  (forall i c, moves_along N c 1 N (w i c) (fun x => skip1 x i) (fun x => skip2 x i)) ->
  plain_scaling (length N) (fun x => inputs_scale x (seq 0 (length N))) -> plain_scaling (length N) (fun x => output_scale x (seq 0 (length N))) ->
  moves_along N cin 1 N cout (residual_block_tower cout (length N) num_blocks block1 skip1 inputs_scale output_scale) (residual_block_tower cout (length N) num_blocks block2 skip2 inputs_scale output_scale).
Proof. exact (@residual_tower_moves_along_lem). Qed.
Print Assumptions residual_tower_moves_along.

(** C72. A residual connection returns its input plus the output of the module; around a module that returns zeros it is the identity. *)
Theorem residual_connection_adds : forall N c module_ x y, channels_last x N c -> module_ x = Ok y -> channels_last y N c ->
  exists z, residual_connection module_ x = Ok z /\ channels_last z N c /\ forall ix, inb (N ++ [c]) ix -> get z ix = (get x ix + get y ix)%R.
Proof. exact (@residual_connection_adds_lem). Qed.
Print Assumptions residual_connection_adds.

(** C72. An MLP tower (without input and output scaling) applies one and the same function of the input channels at every cell of every grid: its output at a cell depends on the input at this cell only. *)
Theorem mlp_tower_is_local : forall cout d units n nonlinearity ps cin, exists F : (Z -> R) -> Z -> R,
  (forall f g o, (forall c, 0 <= c < Z.of_nat cin -> f c = g c) -> F f o = F g o) /\
  forall N x, length N = d -> channels_last x N cin -> exists y, mlp_tower cout d units n nonlinearity no_scale no_scale ps x = Ok y /\ channels_last y N cout /\
    forall ix o, inb (N ++ [cout]) (ix ++ [o]) -> get y (ix ++ [o]) = F (fun c => get x (ix ++ [c])) o.
Proof. exact (@mlp_tower_is_local_lem). Qed.
Print Assumptions mlp_tower_is_local.

(** C72. An MLP tower with any of the usual scalings keeps the grid and moves along with its input. *)
Theorem mlp_tower_moves_along : forall cout units n nonlinearity inputs_scale output_scale ps cin N, (forall i, (i < length N)%nat -> (0 < nth i N 0)%nat) ->
  plain_scaling (length N) (fun x => inputs_scale x (seq 0 (length N))) -> plain_scaling (length N) (fun x => output_scale x (seq 0 (length N))) ->
  let tower := mlp_tower cout (length N) units n nonlinearity inputs_scale output_scale ps in moves_along N cin 1 N cout tower tower.
Proof. exact (@mlp_tower_moves_along_lem). Qed.
Print Assumptions mlp_tower_moves_along.

(** The hypotheses are met by a concrete case. *)
Example rescale_range_ex : exists y, rescale_to_range x46 (-1) 1 [0; 1]%nat = Ok y /\ same_slice (shp x46) [0; 1]%nat [0; 0; 0] [3; 5; 0] /\ get x46 [0; 0; 0] <> get x46 [3; 5; 0] /\ (-1 <= get y [0%Z; 0%Z; 0%Z] <= 1)%R.
Proof. exact (@rescale_range_ex_lem). Qed.

(** The hypotheses are met by a concrete case. *)
Example scalings_are_plain_ex : exists y1 y2, scale_to_range 0 1 x46 (seq 0 2) = Ok y1 /\ scale_to_range 0 1 x46 (seq 0 2) = Ok y2 /\ moved (repeat 0 2) [4; 6]%nat 1 y1 y2.
Proof. exact (@scalings_are_plain_ex_lem). Qed.

(** The hypotheses are met by a concrete case. *)
Example standard_tower_keeps_grid_ex : exists y, (let* T := forward_tower 5 2 8 3 2 (inl 1%nat) (inl 1%nat) 3 1 1 (periodic_convolution_module None) (Rmax 0) no_scale no_scale (fun _ => p33) in T x46) = Ok y /\ channels_last y [4; 6]%nat 5.
Proof. exact (@standard_tower_keeps_grid_ex_lem). Qed.

(** The hypotheses are met by a concrete case. *)
Example residual_tower_moves_along_ex : exists y, residual_block_tower 3 2 4
    (fun i n => forward_tower n 2 8 3 2 (inl 1%nat) (inl 1%nat) 3 1 1 (periodic_convolution_module None) (Rmax 0) no_scale no_scale (fun _ => p33)) (fun x _ => Ok x) no_scale no_scale x46 = Ok y /\ channels_last y [4; 6]%nat 3.
Proof. exact (@residual_tower_moves_along_ex_lem). Qed.

(** The hypotheses are met by a concrete case. *)
Example residual_connection_adds_ex : exists z, residual_connection (fun x => Ok (amap (fun _ => 0%R) x)) x46 = Ok z /\ get z [3; 5; 0] = 23%R.
Proof. exact (@residual_connection_adds_ex_lem). Qed.

(** The hypotheses are met by a concrete case. *)
Example mlp_tower_is_local_ex : exists y, mlp_tower 3 2 8 2 (Rmax 0) no_scale no_scale (fun _ => p33) x46 = Ok y /\ channels_last y [4; 6]%nat 3.
Proof. exact (@mlp_tower_is_local_ex_lem). Qed.

(** The hypotheses are met by a concrete case. *)
Example mlp_tower_moves_along_ex : moves_along [4; 6]%nat 1 1 [4; 6]%nat 3 (mlp_tower 3 2 8 2 (Rmax 0) (scale_to_range 0 1) no_scale (fun _ => p33)) (mlp_tower 3 2 8 2 (Rmax 0) (scale_to_range 0 1) no_scale (fun _ => p33)).
Proof. exact (@mlp_tower_moves_along_ex_lem). Qed.
