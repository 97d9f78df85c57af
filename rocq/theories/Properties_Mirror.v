(** Generated by tools/gen.py from MirrorProps.v: property theorems only. *)
From Verif Require Import Prelude NdArr Grids_model Boundaries_model BoundariesPeriodic Spec SpecTile SpecTower SpecMirror PRep ArrayUtils_model Viscosities_model Tiling_model Towers_model TowerProps TilingProofs TilingProps FDProofs StencilProofs MirrorConv_model InterpProps ViscosityProps ArrayUtilsProps SpecVisc.
From Verif Require Import MirrorProps.
Local Open Scope Z_scope.
Set Implicit Arguments.

(** C74. For periodic fields in the plane MirrorConv2D returns on every cell the correlation with the kernel centred not on that cell but on the cell that lies half the other axis' kernel before it along each axis: the paddings of the two axes are added up. It returns as many fields as the smaller of the number of output channels and of inputs: further output channels are lost. *)
Theorem mirror_conv_displaced : forall g x vs p cout k0 k1 nd rate,
  plane_fields g x vs -> vs <> [] -> (0 < rate)%nat -> (0 < k0)%nat -> (0 < k1)%nat ->
  exists ys, mirror_convolution p cout [k0; k1] nd rate vs = Ok ys /\ length ys = Nat.min cout (length vs) /\
    forall k v y, nth_error vs k = Some v -> nth_error ys k = Some y -> gbc y = gbc v /\
      is_field (garray y) g (goff (garray v))
        (fun ix => centred_correlation g k0 k1 (length vs) rate (weights p) (bias p) x
                     [nth 0 ix 0 - Z.of_nat (span rate k1 / 2); nth 1 ix 0 - Z.of_nat (span rate k0 / 2)] (Z.of_nat k)).
Proof. exact (@mirror_conv_displaced_lem). Qed.
Print Assumptions mirror_conv_displaced.

(** The hypotheses are met by a concrete case. *)
Example mirror_conv_displaced_ex : plane_fields mir_grid mir_x [mir_v] /\ exists y, mirror_convolution centre_tap 1 [3; 3]%nat 2 1 [mir_v] = Ok [y] /\ get (gdata (garray y)) [0; 0] = 2%R.
Proof. exact (@mirror_conv_displaced_ex_lem). Qed.

(** C74. With 1 by 1 kernels MirrorConv2D computes the correlation on the cell itself. *)
Theorem mirror_conv_pointwise : forall g x vs p cout nd rate,
  plane_fields g x vs -> vs <> [] -> (0 < rate)%nat ->
  exists ys, mirror_convolution p cout [1; 1]%nat nd rate vs = Ok ys /\ length ys = Nat.min cout (length vs) /\
    forall k v y, nth_error vs k = Some v -> nth_error ys k = Some y -> gbc y = gbc v /\
      is_field (garray y) g (goff (garray v)) (fun ix => centred_correlation g 1 1 (length vs) rate (weights p) (bias p) x ix (Z.of_nat k)).
Proof. exact (@mirror_conv_pointwise_lem). Qed.
Print Assumptions mirror_conv_pointwise.

(** The hypotheses are met by a concrete case. *)
Example mirror_conv_pointwise_ex : plane_fields mir_grid mir_x [mir_v] /\ [mir_v] <> [].
Proof. exact (@mirror_conv_pointwise_ex_lem). Qed.

(** C74. It is not the case that a 3 by 3 kernel whose only non-zero weight is a one in the centre leaves a periodic field unchanged. *)
Theorem mirror_conv_identity_refuted :
  ~ (forall g x v p, plane_fields g x [v] -> (forall o, bias p o = 0%R) -> (forall tx, weights p tx = if list_eq_dec Z.eq_dec tx [1; 1; 0; 0] then 1%R else 0%R) ->
       exists y, mirror_convolution p 1 [3; 3]%nat 2 1 [v] = Ok [y] /\ is_field (garray y) g (goff (garray v)) (fun ix => get x (ix ++ [0]))).
Proof. exact (@mirror_conv_identity_refuted_lem). Qed.
Print Assumptions mirror_conv_identity_refuted.
