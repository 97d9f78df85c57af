(** Generated by tools/gen.py from LearnedInterpProps.v: property theorems only. *)
From Verif Require Import Prelude NdArr Grids_model Spec ArrayUtils_model ArrayUtilsProps PRep Networks_model Viscosities_model SkillProps Tiling_model SpecTile TilingProofs TilingProps Stencil_model SpecStencil StencilProofs StencilProps StencilLayerProps SpecVisc ViscosityProps SpecLInt LearnedInterp_model LearnedInterpBase LearnedInterpLayers LearnedInterpFuse LearnedInterpDict LearnedInterpEx.
From Verif Require Import LearnedInterpProps.
Local Open Scope R_scope.
Set Implicit Arguments.

(** C71. A learned interpolation, whatever the network: every value it returns half a cell away is an average of the cells of a stencil around the face, with weights that add up to 1 and do not depend on the interpolated quantity nor on the implementation options (fused constraints, fused patches, 1x1 convolutions, patch extraction method, tile layout). *)
Theorem learned_interpolation_averages : forall solve svd g v tags fn tower, learned_setting solve svd g v tags fn tower ->
  exists W : list Q * list Q * option nat -> list Z -> list Z -> R,
    (forall k ix, asked v tags k -> asum (fn k) (W k ix) = 1) /\
    forall pm fuse_constraints fuse_patches constrain_with_conv layout, options_fit (gshape g) (fun S => exists k, asked v tags k /\ fn k = S) pm fuse_constraints fuse_patches constrain_with_conv layout ->
    exists T, learned_interpolation solve svd g v tags fn tower pm fuse_constraints fuse_patches constrain_with_conv layout = Ok T /\
      forall k c offset, asked v tags k -> cell_data g (fst (fst k)) c -> off_eq offset (snd (fst k)) ->
        exists r, learned_call T c offset (snd k) = Ok r /\
          carried g c offset (fun ix => asum (fn k) (fun t => W k ix t * get (gdata (garray c)) (cell_at (gshape g) (map before (fn k)) ix t))) r.
Proof. exact (@learned_interpolation_averages_lem). Qed.
Print Assumptions learned_interpolation_averages.

(** C71. Learned interpolation keeps constants: whatever the network and the options, a field with the same value everywhere stays so. *)
Theorem learned_interpolation_keeps_constants : forall solve svd g v tags fn tower pm fuse_constraints fuse_patches constrain_with_conv layout k c offset a, learned_setting solve svd g v tags fn tower ->
  options_fit (gshape g) (fun S => exists k, asked v tags k /\ fn k = S) pm fuse_constraints fuse_patches constrain_with_conv layout -> asked v tags k -> cell_data g (fst (fst k)) c -> off_eq offset (snd (fst k)) ->
  (forall ix, inb (gshape g) ix -> get (gdata (garray c)) ix = a) ->
  exists T r, learned_interpolation solve svd g v tags fn tower pm fuse_constraints fuse_patches constrain_with_conv layout = Ok T /\ learned_call T c offset (snd k) = Ok r /\ carried g c offset (fun _ => a) r.
Proof. exact (@learned_interpolation_keeps_constants_lem). Qed.
Print Assumptions learned_interpolation_keeps_constants.

(** C71. An untrained learned interpolation, whose network returns zeros, is linear interpolation to the face (the mean of the two cells next to it) when the stencil has an even number of cells along the axis, and takes the cell before the face when it is odd. *)
Theorem untrained_interpolation_is_linear : forall solve svd g v tags fn tower pm fuse_constraints fuse_patches constrain_with_conv layout, learned_setting solve svd g v tags fn tower ->
  options_fit (gshape g) (fun S => exists k, asked v tags k /\ fn k = S) pm fuse_constraints fuse_patches constrain_with_conv layout ->
  (forall n x y ix, tower n x = Ok y -> get y ix = 0) ->
  exists T, learned_interpolation solve svd g v tags fn tower pm fuse_constraints fuse_patches constrain_with_conv layout = Ok T /\
    forall u j t c offset, In u v -> (j < gndim g)%nat -> In t tags -> cell_data g (goff (garray u)) c -> off_eq offset (half_a_cell j (goff (garray u))) ->
      exists r, learned_call T c offset t = Ok r /\
        carried g c offset (fun ix => if Nat.even (nth j (fn (goff (garray u), half_a_cell j (goff (garray u)), t)) 0%nat) then (get (gdata (garray c)) ix + get (gdata (garray c)) (wrap (gshape g) (next j ix))) / 2 else get (gdata (garray c)) ix) r.
Proof. exact (@untrained_interpolation_is_linear_lem). Qed.
Print Assumptions untrained_interpolation_is_linear.

(** C71. The learned interpolation of a field to its own offset does not return the field: the result has an extra axis of length one, so it is no longer data on the grid. *)
Theorem learned_same_offset_refuted : forall T c t, length (btypes (gbc c)) = gndim (ggrid (garray c)) ->
  exists r, learned_call T c (goff (garray c)) t = Ok r /\ shp (gdata (garray r)) = shp (gdata (garray c)) ++ [1%nat] /\ shp (gdata (garray r)) <> shp (gdata (garray c)).
Proof. exact (@learned_same_offset_refuted_lem). Qed.
Print Assumptions learned_same_offset_refuted.

(** C71. A learned interpolation refuses a target that is not half a cell along an axis from a component of the velocity, or an unknown tag. *)
Theorem learned_unknown_target_refused : forall solve svd g v tags fn tower pm fuse_constraints fuse_patches constrain_with_conv layout T c offset t,
  learned_setting solve svd g v tags fn tower -> options_fit (gshape g) (fun S => exists k, asked v tags k /\ fn k = S) pm fuse_constraints fuse_patches constrain_with_conv layout ->
  learned_interpolation solve svd g v tags fn tower pm fuse_constraints fuse_patches constrain_with_conv layout = Ok T ->
  length (btypes (gbc c)) = gndim (ggrid (garray c)) -> ~ off_eq (goff (garray c)) offset ->
  (forall o p, asked v tags (o, p, t) -> off_eq (goff (garray c)) o -> ~ off_eq offset p) -> learned_call T c offset t = Err EIndex.
Proof. exact (@learned_unknown_target_refused_lem). Qed.
Print Assumptions learned_unknown_target_refused.

(** The hypotheses are met by a concrete case. *)
Example learned_interpolation_averages_ex : exists W T r, asum [2; 2]%nat (W [3%Z; 1%Z]) = 1 /\ learned_interpolation cramer (cand_svd []) li_g li_v [None; Some 0%nat] (isotropic_sizes 2 2) (li_tower li_c) PConv true true true (Some [2; 1]%nat) = Ok T /\
  learned_call T (li_u li_c (li_o 0)) [1; 1]%Q (Some 0%nat) = Ok r /\ get (gdata (garray r)) [3%Z; 1%Z] = asum [2; 2]%nat (fun t => W [3%Z; 1%Z] t * li_c (cell_at [4; 2]%nat [0; 0]%nat [3%Z; 1%Z] t)).
Proof. exact (@learned_interpolation_averages_ex_lem). Qed.

(** The hypotheses are met by a concrete case. *)
Example learned_interpolation_keeps_constants_ex : exists T r, learned_interpolation cramer (cand_svd []) li_g li_v [None; Some 0%nat] (isotropic_sizes 2 2) (li_tower li_c) PConv true true true (Some [2; 1]%nat) = Ok T /\
  learned_call T (li_u (fun _ => 9) (li_o 0)) [1; 1]%Q (Some 0%nat) = Ok r /\ get (gdata (garray r)) [3%Z; 1%Z] = 9.
Proof. exact (@learned_interpolation_keeps_constants_ex_lem). Qed.

(** The hypotheses are met by a concrete case. *)
Example untrained_interpolation_is_linear_ex : exists T r, learned_interpolation cramer (cand_svd []) li_g li_v [None; Some 0%nat] (isotropic_sizes 2 2) (li_tower (fun _ => 0)) PConv true true true (Some [2; 1]%nat) = Ok T /\
  learned_call T (li_u li_c (li_o 0)) [3 # 2; 1 # 2]%Q None = Ok r /\ get (gdata (garray r)) [3%Z; 1%Z] = 11 / 2.
Proof. exact (@untrained_interpolation_is_linear_ex_lem). Qed.

(** The hypotheses are met by a concrete case. *)
Example learned_unknown_target_refused_ex : exists T, learned_interpolation cramer (cand_svd []) li_g li_v [None; Some 0%nat] (isotropic_sizes 2 2) (li_tower li_c) PConv true true true (Some [2; 1]%nat) = Ok T /\
  learned_call T (li_u li_c (li_o 0)) [1; 1]%Q (Some 3%nat) = Err EIndex /\ learned_call T (li_u li_c (li_o 0)) [0; 1 # 2]%Q None = Err EIndex.
Proof. exact (@learned_unknown_target_refused_ex_lem). Qed.
