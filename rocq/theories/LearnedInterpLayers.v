(** * Interpolation stencils: weights, fused evaluation (lemmas for C71) *)
From Verif Require Import Prelude NdArr Grids_model ArrayUtils_model ArrayUtilsProps PRep Tiling_model SpecTile TilingProofs TilingProps Stencil_model SpecStencil StencilProofs StencilProps StencilLayerProps SpecLInt LearnedInterp_model LearnedInterpBase.
Set Implicit Arguments.
Local Open Scope R_scope.

(** ** the layer between an offset and the same offset moved by half a cell *)
Lemma il_ext S d1 d2 pc : (forall i, (i < length S)%nat -> d1 i = d2 i) -> interp_layer S d1 pc -> interp_layer S d2 pc.
Proof.
  intros H [A1 A2 A3 A4 A5 A6]. constructor; auto. intros t Ht. rewrite A3 by exact Ht. apply rprod_ext. intros i Hi. apply in_seq in Hi. rewrite H by lia. reflexivity.
Qed.
Definition half_shift (j i : nat) : R := if (i =? j)%nat then / 2 else 0.
Lemma half_delta o p j i : (j < length o)%nat -> (i < length o)%nat -> off_eq p (half_a_cell j o) -> (nth i p 0 - nth i o 0 == if (i =? j)%nat then 1 # 2 else 0)%Q.
Proof.
  intros Hj Hi H. pose proof (off_eq_nth i H) as E. unfold half_a_cell in E. destruct (Nat.eqb_spec i j) as [->|Hne].
  - rewrite nth_upd_same in E by exact Hj. rewrite E. ring.
  - rewrite nth_upd_other in E by auto. rewrite E. ring.
Qed.
Lemma half_floor o p j i : (j < length o)%nat -> (i < length o)%nat -> off_eq p (half_a_cell j o) -> Qround.Qfloor (nth i p 0%Q - nth i o 0%Q) = 0%Z.
Proof. intros Hj Hi H. rewrite (Qround.Qfloor_comp _ _ (@half_delta o p j i Hj Hi H)). destruct (i =? j)%nat; reflexivity. Qed.
Lemma half_length o p j : off_eq p (half_a_cell j o) -> length p = length o.
Proof. intros H. rewrite (off_eq_length H). unfold half_a_cell. apply upd_length. Qed.
Lemma half_layer solve svd h S o p j n pm layout : correct_solver solve -> solves_small solve -> correct_svd svd -> h <> 0 -> (j < n)%nat -> length S = n -> length o = n -> off_eq p (half_a_cell j o) ->
  (forall i, (i < n)%nat -> (0 < nth i S 0)%nat) -> (2 <= asize S)%nat ->
  exists pc, make_spatial_derivative solve svd S o p (repeat 0%nat n) (repeat h n) pm layout FiniteVolume = Ok (mkSD S (repeat 0%Z n) pc pm layout) /\ interp_layer S (half_shift j) pc.
Proof.
  intros Hsol Hsm Hsvd Hh Hj LS Lo Hp HS H2. pose proof (@half_length o p j Hp) as Lp. destruct (shift_length o p ltac:(lia)) as (Lsh & Lr).
  destruct (@layer_constructed solve svd h S (snd (get_roll_and_shift o p)) n Hsol Hsm Hsvd Hh) as (pc & Epc & Hil); [lia | exact LS | lia | exact HS | exact H2|].
  exists pc. split.
  - unfold make_spatial_derivative. destruct (get_roll_and_shift o p) as (roll, shift) eqn:E. cbn [fst snd] in *. rewrite Epc. cbn [bind]. f_equal. f_equal.
    apply (list_ext_nth 0%Z); [rewrite repeat_length; lia|]. intros i Hi. rewrite nth_repeat' by lia. destruct (@roll_nth o p i ltac:(lia) ltac:(lia)) as (R1 & _). rewrite E in R1. cbn [fst] in R1. rewrite R1, (@half_floor o p j i) by (auto; lia). reflexivity.
  - apply (@il_ext S (fun i => Q2R (nth i (snd (get_roll_and_shift o p)) 0%Q))); [|exact Hil]. intros i Hi. destruct (@roll_nth o p i ltac:(lia) ltac:(lia)) as (_ & R2). rewrite R2. rewrite (@half_floor o p j i) by (auto; lia).
    rewrite (Qreals.Qeq_eqR _ (if (i =? j)%nat then 1 # 2 else 0)%Q); [unfold half_shift; destruct (i =? j)%nat; unfold Q2R; cbn; lra|]. rewrite (@half_delta o p j i) by (auto; lia). destruct (i =? j)%nat; reflexivity.
Qed.

(** ** weights *)
(** the weight of stencil cell number [k] for the logits [L] *)
Definition weight_of (pc : poly_constraint) (L : Z -> R) (k : Z) : R :=
  nth (Z.to_nat k) (pc_bias pc) 0 + rsum (length (pc_nullspace pc)) (fun j => L j * nth (Z.to_nat k) (nth (Z.to_nat j) (pc_nullspace pc) []) 0).
Lemma rprod_all_one {A} (F : A -> R) l : (forall x, In x l -> F x = 1) -> rprod (map F l) = 1.
Proof. intros H. induction l as [|x l IH]; [reflexivity|]. cbn [map]. rewrite rprod_cons, H by (left; reflexivity). rewrite IH by (intros y Hy; apply H; right; exact Hy). ring. Qed.
Lemma middle_sum S d : (0 < S)%nat -> rsum S (middle_weight S d) = 1.
Proof. intros H. rewrite (@rsum_ext S _ (fun t => middle_weight S d t * 1)) by (intros; ring). rewrite (@middle_apply S d (fun _ => 1)) by exact H. destruct (Nat.even S); ring. Qed.
Lemma weights_sum S d pc L : (forall i, (i < length S)%nat -> (0 < nth i S 0)%nat) -> interp_layer S d pc -> asum S (fun t => weight_of pc L (tile_number S t)) = 1.
Proof.
  intros HS Hil. unfold weight_of. rewrite asum_plus. rewrite (@asum_ext S (fun t => nth (Z.to_nat (tile_number S t)) (pc_bias pc) 0) (fun t => rprod (map (fun i => middle_weight (nth i S 0%nat) (d i) (nth i t 0%Z)) (seq 0 (length S))))) by (intros t Ht; apply (il_bias Hil); exact Ht).
  rewrite (asum_prod S (fun i t => middle_weight (nth i S 0%nat) (d i) t)). rewrite rprod_all_one by (intros i Hi; apply in_seq in Hi; apply middle_sum; apply HS; lia).
  rewrite (@asum_ext S _ (fun t => rsum (length (pc_nullspace pc)) (fun j => L j * nth (Z.to_nat (tflat S t)) (nth (Z.to_nat j) (pc_nullspace pc) []) 0))) by (intros t Ht; rewrite (tile_number_flat S t); reflexivity).
  rewrite (asum_flat S (fun k => rsum (length (pc_nullspace pc)) (fun j => L j * nth (Z.to_nat k) (nth (Z.to_nat j) (pc_nullspace pc) []) 0))). rewrite rsum_swap.
  rewrite (@rsum_ext (length (pc_nullspace pc)) _ (fun _ => 0)); [rewrite rsum_0; ring|]. intros j Hj. rewrite rsum_scal. rewrite (il_row_sum Hil); [ring|]. apply nth_In. lia.
Qed.

(** ** an interpolator: linear in its input, with given weights *)
Definition interpolates (N S : list nat) (w : list Z -> list Z -> R) (f : arr R -> result (arr R)) : Prop :=
  forall x, channels_last x N 1 -> exists y, f x = Ok y /\ channels_last y N 1 /\
    forall ix, inb N ix -> get y (ix ++ [0%Z]) = asum S (fun t => w ix t * get x (cell_at N (map before S) ix t ++ [0%Z])).
Lemma sd_patches_ok (x : arr R) N sd : channels_last x N 1 -> length (sd_shape sd) = length N -> (forall i, (i < length N)%nat -> (0 < nth i N 0 /\ 0 < nth i (sd_shape sd) 0)%nat) ->
  layout_fits N (sd_shape sd) (sd_patches sd) (sd_tiles sd) -> sd_patches sd <> POther -> fold_right Z.add 0%Z (sd_roll sd) = 0%Z ->
  exists pa, sd_extract_patches sd x = Ok pa /\ channels_last pa N (asize (sd_shape sd)) /\
    forall ix t, inb N ix -> inb (sd_shape sd) t -> get pa (ix ++ [tile_number (sd_shape sd) t]) = get x (cell_at N (map before (sd_shape sd)) ix t ++ [0%Z]).
Proof.
  intros Hx HS Hp Hf Hm Hr. unfold sd_extract_patches. destruct (@patches_ok (roll_flat x (sd_roll sd)) N (sd_shape sd) (sd_patches sd) (sd_tiles sd) Hx HS Hp Hf Hm) as (pa & E & C & G).
  exists pa. split; [exact E|]. split; [exact C|]. intros ix t Hix Ht. rewrite G by assumption. apply roll_flat_none; [exact Hr|]. unfold channels_last in Hx. rewrite Hx. apply inb_app_intro; [apply cell_at_in; intros i Hi; apply Hp; exact Hi | cbn; lia].
Qed.
Lemma apply_rep (co pa x : arr R) N S w : channels_last co N (asize S) -> channels_last pa N (asize S) ->
  (forall ix t, inb N ix -> inb S t -> get co (ix ++ [tile_number S t]) = w ix t) -> (forall ix t, inb N ix -> inb S t -> get pa (ix ++ [tile_number S t]) = get x (cell_at N (map before S) ix t ++ [0%Z])) ->
  exists y, apply_coefficients co pa = Ok y /\ channels_last y N 1 /\ forall ix, inb N ix -> get y (ix ++ [0%Z]) = asum S (fun t => w ix t * get x (cell_at N (map before S) ix t ++ [0%Z])).
Proof.
  intros Hco Hpa Gco Gpa. unfold channels_last in *. unfold apply_coefficients. rewrite Hco, Hpa. destruct (list_eq_dec Nat.eq_dec (N ++ [asize S]) (N ++ [asize S])) as [_|]; [|congruence].
  unfold ndim. rewrite Hco, app_length. cbn [length]. replace (length N + 1 =? 0)%nat with false by (symmetry; apply Nat.eqb_neq; lia). eexists; split; [reflexivity|]. cbn [shp get]. rewrite removelast_app1. split; [reflexivity|]. intros ix Hix.
  rewrite last_last, removelast_app1. rewrite <- (asum_flat S (fun k => get co (ix ++ [k]) * get pa (ix ++ [k]))). apply asum_ext. intros t Ht. rewrite <- (tile_number_flat S t). rewrite Gco, Gpa by assumption. reflexivity.
Qed.
Lemma tile_range S t : inb S t -> (0 <= tile_number S t < Z.of_nat (asize S))%Z.
Proof. intros H. rewrite (tile_number_flat S t). apply tflat_range. exact H. Qed.
(** ** the joint constraint *)
Lemma constraint_value pc (x : arr R) N k : channels_last x N k -> k = length (pc_nullspace pc) -> exists co, constraint_call pc x = Ok co /\ channels_last co N (length (pc_bias pc)) /\
  forall ix o, get co (ix ++ [o]) = weight_of pc (fun j => get x (ix ++ [j])) o.
Proof.
  intros Hx ->. unfold channels_last in *. unfold constraint_call, ndim. rewrite Hx, app_length. cbn [length]. replace (length N + 1 =? 0)%nat with false by (symmetry; apply Nat.eqb_neq; lia).
  replace (length N + 1 - 1)%nat with (length N) by lia. rewrite app_nth2, Nat.sub_diag by lia. cbn [nth]. rewrite Nat.eqb_refl. cbn [negb]. eexists; split; [reflexivity|]. cbn [shp get]. rewrite removelast_app1. split; [reflexivity|].
  intros ix o. rewrite last_last, removelast_app1. reflexivity.
Qed.
Definition fit_rows (pc : poly_constraint) : Prop := pc_nullspace pc <> [] /\ forall row, In row (pc_nullspace pc) -> length row = length (pc_bias pc).
Definition sum_of (f : spatial_derivative -> nat) (sds : list spatial_derivative) : nat := fold_right Nat.add 0%nat (map f sds).
Definition null_size (sd : spatial_derivative) : nat := length (pc_nullspace (sd_constraint sd)).
Definition bias_size (sd : spatial_derivative) : nat := length (pc_bias (sd_constraint sd)).
Lemma ncols_fit pc : fit_rows pc -> ncols (pc_nullspace pc) = length (pc_bias pc).
Proof. intros (H1 & H2). unfold ncols. destruct (pc_nullspace pc) as [|r l]; [congruence|]. apply H2. left. reflexivity. Qed.
Lemma block_cols sds : Forall (fun sd => fit_rows (sd_constraint sd)) sds ->
  fold_right Nat.add 0%nat (map ncols (map (fun sd => pc_nullspace (sd_constraint sd)) sds)) = sum_of bias_size sds.
Proof. unfold sum_of. induction 1 as [|sd l H HF IH]; [reflexivity|]. cbn [map fold_right]. rewrite IH, ncols_fit by exact H. reflexivity. Qed.
Lemma block_length sds : length (block_diag (map (fun sd => pc_nullspace (sd_constraint sd)) sds)) = sum_of null_size sds.
Proof. unfold sum_of. induction sds as [|sd l IH]; [reflexivity|]. cbn [map block_diag fold_right]. rewrite app_length, !map_length, IH. reflexivity. Qed.
Lemma joint_bias_length sds : length (pc_bias (joint_constraint sds)) = sum_of bias_size sds.
Proof. unfold joint_constraint, sum_of. cbn [pc_bias]. induction sds as [|sd l IH]; [reflexivity|]. cbn [map concat fold_right]. rewrite app_length, IH. reflexivity. Qed.
Lemma joint_weight sds : forall p L k sd, Forall (fun sd => fit_rows (sd_constraint sd)) sds -> nth_error sds p = Some sd -> (0 <= k < Z.of_nat (bias_size sd))%Z ->
  weight_of (joint_constraint sds) L (k + Z.of_nat (sum_of bias_size (firstn p sds))) = weight_of (sd_constraint sd) (fun j => L (j + Z.of_nat (sum_of null_size (firstn p sds)))%Z) k.
Proof.
  induction sds as [|s sds IH]; intros p L k sd HF Hp Hk; [destruct p; discriminate|]. inversion_clear HF as [|? ? Hs HF']. destruct p as [|p]; cbn [nth_error] in Hp.
  - injection Hp as ->. cbn [firstn]. unfold sum_of. cbn [map fold_right]. rewrite Z.add_0_r. unfold weight_of. f_equal.
    + unfold joint_constraint. cbn [pc_bias map concat]. rewrite app_nth1 by (unfold bias_size in Hk; lia). reflexivity.
    + unfold joint_constraint. cbn [pc_nullspace map block_diag]. rewrite app_length, !map_length, rsum_split. rewrite (@rsum_ext (length (block_diag _)) _ (fun _ => 0)).
      * rewrite rsum_0, Rplus_0_r. apply rsum_ext. intros j Hj. rewrite app_nth1 by (rewrite map_length; lia). rewrite (nth_map' _ _ [] []) by lia. rewrite app_nth1. { rewrite Z.add_0_r. reflexivity. }
        destruct Hs as (_ & Hs). rewrite Hs by (apply nth_In; lia). unfold bias_size in Hk. lia.
      * intros j Hj. rewrite app_nth2 by (rewrite map_length; lia). rewrite map_length. replace (Z.to_nat (j + Z.of_nat (length (pc_nullspace (sd_constraint sd)))) - length (pc_nullspace (sd_constraint sd)))%nat with (Z.to_nat j) by lia.
        rewrite (nth_map' _ _ [] []) by lia. rewrite app_nth1 by (rewrite repeat_length, ncols_fit by exact Hs; unfold bias_size in Hk; lia). rewrite nth_repeat. ring.
  - cbn [firstn]. specialize (IH p (fun j => L (j + Z.of_nat (null_size s))%Z) k sd HF' Hp Hk).
    replace (sum_of bias_size (s :: firstn p sds)) with (bias_size s + sum_of bias_size (firstn p sds))%nat by reflexivity. replace (sum_of null_size (s :: firstn p sds)) with (null_size s + sum_of null_size (firstn p sds))%nat by reflexivity.
    set (B := sum_of bias_size (firstn p sds)) in *. set (M := sum_of null_size (firstn p sds)) in *. transitivity (weight_of (joint_constraint sds) (fun j => L (j + Z.of_nat (null_size s))%Z) (k + Z.of_nat B)).
    + unfold weight_of. f_equal.
      * unfold joint_constraint. cbn [pc_bias map concat]. rewrite app_nth2 by (unfold bias_size; lia). f_equal. unfold bias_size. lia.
      * unfold joint_constraint. cbn [pc_nullspace map block_diag]. rewrite app_length, !map_length, rsum_split. rewrite (@rsum_ext (length (pc_nullspace (sd_constraint s))) _ (fun _ => 0)).
        -- rewrite rsum_0, Rplus_0_l. apply rsum_ext. intros j Hj. rewrite app_nth2 by (rewrite map_length; lia). rewrite map_length. replace (Z.to_nat (j + Z.of_nat (length (pc_nullspace (sd_constraint s)))) - length (pc_nullspace (sd_constraint s)))%nat with (Z.to_nat j) by lia.
           rewrite (nth_map' _ _ [] []) by lia. rewrite app_nth2 by (rewrite repeat_length, ncols_fit by exact Hs; unfold bias_size; lia). rewrite repeat_length, ncols_fit by exact Hs. f_equal. f_equal. unfold bias_size. lia.
        -- intros j Hj. rewrite app_nth1 by (rewrite map_length; lia). rewrite (nth_map' _ _ [] []) by lia. destruct Hs as (H1 & H2). rewrite app_nth2 by (rewrite H2 by (apply nth_In; lia); unfold bias_size; lia). rewrite nth_repeat. ring.
    + rewrite IH. unfold weight_of. f_equal. apply rsum_ext. intros j Hj. do 2 f_equal. lia.
Qed.
