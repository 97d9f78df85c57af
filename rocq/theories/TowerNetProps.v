(** * C72: convolutional towers are networks in the sense of the learned-solver theorems *)
From Verif Require Import Prelude NdArr Grids_model Spec SpecTile SpecML SpecLInt SpecTower Towers_model TilingProps TowerProps TowerMoreProps PressureSolveProps.
Set Implicit Arguments.
Local Open Scope Z_scope.

(* @prop C72 The standard tower (any number of hidden layers and channels, any kernel size, dilation rate, nonlinearity and weights, stride one, any input and output scaling that keeps shapes) is one of the networks the theorems on learned solvers quantify over (C62, C68): on every grid of one to three axes that is at least half a dilated kernel wide, it turns any number of channels over the grid into the requested number of channels over the grid. *)
Lemma towers_are_any_networks_lem : forall g hidden kernel_size n rate output_kernel output_rate nonlinearity inputs_scale output_scale ps, (1 <= gndim g <= 3)%nat ->
  (0 < rate)%nat -> (0 < kernel_size)%nat -> (0 < output_rate)%nat -> (0 < output_kernel)%nat ->
  (forall i, (i < gndim g)%nat -> (0 < nth i (gshape g) 0 /\ span rate kernel_size / 2 <= nth i (gshape g) 0 /\ span output_rate output_kernel / 2 <= nth i (gshape g) 0)%nat) ->
  plain_scaling (gndim g) (fun x => inputs_scale x (seq 0 (gndim g))) -> plain_scaling (gndim g) (fun x => output_scale x (seq 0 (gndim g))) ->
  any_network g (fun cout x => let* T := forward_tower cout (gndim g) hidden kernel_size n (inl rate) (inl 1%nat) output_kernel output_rate 1 (periodic_convolution_module None) nonlinearity inputs_scale output_scale ps in T x).
Proof.
  intros g hidden k n rate ok orate sigma isc osc ps Hd Hr Hk Hor Hok HN Hi Ho nout c x Hx.
  destruct (@standard_tower_keeps_grid_lem (gndim g) hidden k n rate ok orate sigma isc osc ps (gshape g) Hd eq_refl Hr Hk Hor Hok HN Hi Ho c) as (H & _).
  exact (H nout x Hx).
Qed.
(* @ex *)
Lemma towers_are_any_networks_ex_lem : any_network p34g (fun cout x => let* T := forward_tower cout 2 8 3 2 (inl 1%nat) (inl 1%nat) 3 1 1 (periodic_convolution_module None) (Rmax 0) no_scale no_scale (fun _ => p33) in T x).
Proof.
  apply (@towers_are_any_networks_lem p34g 8 3 2 1 3 1 (Rmax 0) no_scale no_scale (fun _ => p33)); try (cbn; lia); try apply no_scale_plain. intros [|[|i]] Hi; cbn in *; lia.
Qed.
