(** Generated by tools/gen.py from LearnedInterpMoreProps.v: property theorems only. *)
From Verif Require Import Prelude NdArr Grids_model Spec ArrayUtils_model ArrayUtilsProps PRep Networks_model Viscosities_model SkillProps Tiling_model SpecTile TilingProofs TilingProps Stencil_model SpecStencil StencilProofs StencilProps StencilLayerProps SpecVisc ViscosityProps SpecLInt LearnedInterp_model LearnedInterpBase LearnedInterpLayers LearnedInterpFuse LearnedInterpDict LearnedInterpEx LearnedInterpProps.
From Verif Require Import LearnedInterpMoreProps.
Local Open Scope R_scope.
Set Implicit Arguments.

(** C71. A learned interpolation with a stencil of a single cell, which leaves the network nothing to choose, is refused when it is built. *)
Theorem one_cell_interpolation_refused : forall solve svd g v tags fn tower pm fuse_constraints fuse_patches constrain_with_conv layout h (k : ikey), gstep g = repeat h (gndim g) -> h <> 0 -> asked v tags k -> length (fst (fst k)) = gndim g ->
  length (fn k) = gndim g -> (0 < gndim g)%nat -> fold_right Nat.mul 1%nat (fn k) = 1%nat -> exists e, learned_interpolation solve svd g v tags fn tower pm fuse_constraints fuse_patches constrain_with_conv layout = Err e.
Proof. exact (@one_cell_interpolation_refused_lem). Qed.
Print Assumptions one_cell_interpolation_refused.

(** C71. The stencil size of a learned interpolation: an integer size is used on every axis; the anisotropic variant uses it along the interpolated axis only, and one cell on the others. *)
Theorem learned_stencil_sizes : forall d s o j t, (j < length o)%nat -> by_value (isotropic_sizes d s) /\ by_value (anisotropic_sizes s) /\
  isotropic_sizes d s (o, half_a_cell j o, t) = repeat s d /\ anisotropic_sizes s (o, half_a_cell j o, t) = upd j s (repeat 1%nat (length o)).
Proof. exact (@learned_stencil_sizes_lem). Qed.
Print Assumptions learned_stencil_sizes.

(** C71. Learned interpolation with a separate network for each pair of offsets: to its own offset a field is returned unchanged; half a cell along an axis, every value is an average of the cells of the stencil around the face, with weights that add up to 1, whatever the networks. *)
Theorem individual_interpolation_averages : forall solve svd g s tower_of c v j offset, correct_solver solve -> solves_small solve -> correct_svd svd -> (exists h, h <> 0 /\ gstep g = repeat h (gndim g)) ->
  (forall i, (i < gndim g)%nat -> (0 < nth i (gshape g) 0)%nat) -> (2 <= s)%nat -> (j < gndim g)%nat -> (forall u, In u v -> shp (gdata (garray u)) = gshape g) ->
  (forall o p, keeps_grid (gshape g) (1 + length v) (tower_of (o, p))) -> cell_data g (goff (garray c)) c -> length (goff (garray c)) = gndim g ->
  individual_interpolation solve svd g s tower_of c (goff (garray c)) v = Ok c /\
  (off_eq offset (half_a_cell j (goff (garray c))) -> exists w r, (forall ix, asum (repeat s (gndim g)) (w ix) = 1) /\ individual_interpolation solve svd g s tower_of c offset v = Ok r /\
     carried g c offset (fun ix => asum (repeat s (gndim g)) (fun t => w ix t * get (gdata (garray c)) (cell_at (gshape g) (repeat (before s) (gndim g)) ix t))) r).
Proof. exact (@individual_interpolation_averages_lem). Qed.
Print Assumptions individual_interpolation_averages.

(** The hypotheses are met by a concrete case. *)
Example one_cell_interpolation_refused_ex : exists e, learned_interpolation cramer (cand_svd []) li_g li_v [None; Some 0%nat] (anisotropic_sizes 1) (li_tower li_c) PRoll false false false None = Err e.
Proof. exact (@one_cell_interpolation_refused_ex_lem). Qed.

(** The hypotheses are met by a concrete case. *)
Example learned_stencil_sizes_ex : anisotropic_sizes 4 (li_o 0, half_a_cell 1 (li_o 0), None) = [1; 4]%nat.
Proof. exact (@learned_stencil_sizes_ex_lem). Qed.

(** The hypotheses are met by a concrete case. *)
Example individual_interpolation_averages_ex : exists w r, (forall ix, asum [2; 2]%nat (w ix) = 1) /\ individual_interpolation cramer (cand_svd []) li_g 2 (fun _ => li_tower li_c) (li_u li_c (li_o 0)) [3 # 2; 1 # 2]%Q li_v = Ok r /\
  get (gdata (garray r)) [3%Z; 1%Z] = asum [2; 2]%nat (fun t => w [3%Z; 1%Z] t * li_c (cell_at [4; 2]%nat [0; 0]%nat [3%Z; 1%Z] t)).
Proof. exact (@individual_interpolation_averages_ex_lem). Qed.
