(** * Fused and separate evaluation of interpolation layers (lemmas for C71) *)
From Verif Require Import Prelude NdArr Grids_model ArrayUtils_model ArrayUtilsProps PRep SkillProps Tiling_model SpecTile TilingProofs TilingProps Stencil_model SpecStencil StencilProofs StencilProps StencilLayerProps SpecLInt LearnedInterp_model LearnedInterpBase LearnedInterpLayers.
Set Implicit Arguments.
Local Open Scope R_scope.

Lemma nth_error_nth_d {A} (l : list A) k d x : nth_error l k = Some x -> nth k l d = x.
Proof. revert k. induction l as [|y l IH]; intros [|k] H; cbn in *; try discriminate; [congruence | apply IH; exact H]. Qed.
(** ** splitting the last axis *)
Lemma starts_nth sizes : forall a p, (p < length sizes)%nat -> nth p (starts_from a sizes) 0%nat = (a + fold_right Nat.add 0 (firstn p sizes))%nat.
Proof. induction sizes as [|s r IH]; intros a p Hp; [cbn in Hp; lia|]. destruct p as [|p]; cbn [starts_from nth firstn fold_right]; [lia|]. rewrite IH by (cbn in Hp; lia). lia. Qed.
Lemma starts_length sizes : forall a, length (starts_from a sizes) = length sizes.
Proof. induction sizes as [|s r IH]; intros a; cbn [starts_from length]; [reflexivity|]. rewrite IH. reflexivity. Qed.
Lemma split_nth sizes (a : arr R) p : (p < length sizes)%nat -> nth_error (split_sizes sizes a) p =
  Some (mkarr (removelast (shp a) ++ [nth p sizes 0%nat]) (fun ix => get a (removelast ix ++ [(last ix 0 + Z.of_nat (fold_right Nat.add 0%nat (firstn p sizes)))%Z]))).
Proof.
  intros Hp. unfold split_sizes. rewrite (nth_error_nth' _ (mkarr [] (fun _ => 0))) by (rewrite map_length, combine_length, starts_length; lia). f_equal.
  rewrite (nth_map' _ _ (0%nat, 0%nat) (mkarr [] (fun _ => 0))) by (rewrite combine_length, starts_length; lia). rewrite combine_nth by apply starts_length. cbn [fst snd]. rewrite starts_nth by exact Hp. reflexivity.
Qed.
Lemma split_length sizes (a : arr R) : length (split_sizes sizes a) = length sizes.
Proof. unfold split_sizes. rewrite map_length, combine_length, starts_length. lia. Qed.
(** ** coefficients of all layers *)
Lemma asum_ones n cin (F : list Z -> R) : asum (repeat 1%nat n ++ [cin]) F = rsum cin (fun j => F (repeat 0%Z n ++ [j])).
Proof.
  revert F. induction n as [|n IH]; intros F; [reflexivity|]. cbn [repeat app asum]. unfold rsum at 1. cbn. rewrite Rplus_0_l. rewrite (IH (fun ix => F (0%Z :: ix))). reflexivity.
Qed.
Lemma last_two {A} (l : list A) a b d : last (removelast (l ++ [a; b])) d = a /\ last (l ++ [a; b]) d = b.
Proof. replace (l ++ [a; b]) with ((l ++ [a]) ++ [b]) by (rewrite <- app_assoc; reflexivity). rewrite removelast_app1, !last_last. auto. Qed.
Lemma fused_coefficients_ok sds (logits : arr R) N layout cc : channels_last logits N (sum_of null_size sds) -> (forall i, (i < length N)%nat -> (0 < nth i N 0)%nat) ->
  (forall L, layout = Some L -> exists m, tiled_by N L m) -> (cc = true -> layout <> None) ->
  exists co, fused_coefficients sds layout cc logits = Ok co /\ channels_last co N (sum_of bias_size sds) /\
    forall ix o, inb N ix -> (0 <= o < Z.of_nat (sum_of bias_size sds))%Z -> get co (ix ++ [o]) = weight_of (joint_constraint sds) (fun j => get logits (ix ++ [j])) o.
Proof.
  intros Hlog HN HT Hcc. unfold fused_coefficients. set (J := joint_constraint sds). pose proof (joint_bias_length sds) as LB. fold J in LB. pose proof (block_length sds) as LN. change (block_diag (map (fun sd => pc_nullspace (sd_constraint sd)) sds)) with (pc_nullspace J) in LN.
  destruct cc.
  - destruct layout as [L|]; [|exfalso; apply Hcc; reflexivity]. destruct (HT L eq_refl) as (m & Hm). pose proof Hm as (_ & HLN & _).
    set (ker := mkarr _ _). destruct (@periodic_convolution_exact_lem logits ker N (repeat 1%nat (length L)) (sum_of null_size sds) (sum_of bias_size sds) (Some L) m Hlog) as (y & Ey & Cy & Vy).
    { unfold ker. cbn [shp]. rewrite LN, LB. reflexivity. } { rewrite repeat_length. lia. } { intros i Hi. rewrite nth_repeat' by lia. split; [apply HN; exact Hi | lia]. } { exact Hm. } { intros i Hi. rewrite nth_repeat' by lia. cbn. lia. }
    rewrite Ey. cbn [bind]. unfold add_last. unfold channels_last in Cy. rewrite Cy, last_last, LB, Nat.eqb_refl. eexists; split; [reflexivity|]. split; [reflexivity|]. intros ix o Hix Ho. cbn [get]. rewrite last_last. unfold weight_of. f_equal. rewrite Vy by (apply inb_app_intro; [exact Hix | cbn; lia]).
    unfold correlate. rewrite asum_ones, LN. apply rsum_ext. intros j Hj. f_equal.
    + f_equal. rewrite nth_post by (rewrite !repeat_length; reflexivity). f_equal. apply (list_ext_nth 0%Z); [unfold cell_at; rewrite map_length, seq_length; symmetry; apply (inb_length _ _ Hix)|]. intros i Hi. unfold cell_at in Hi. rewrite map_length, seq_length in Hi. unfold cell_at. rewrite (@nth_map_seq _ (fun i0 => ((nth i0 ix 0 + nth i0 (repeat 0%Z (length L) ++ [j]) 0 - Z.of_nat (nth i0 (map before (repeat 1%nat (length L))) 0%nat)) mod Z.of_nat (nth i0 N 0%nat))%Z)) by lia.
      rewrite app_nth1 by (rewrite repeat_length; lia). rewrite nth_repeat. rewrite (nth_map' _ _ 0%nat 0%nat) by (rewrite repeat_length; lia). rewrite nth_repeat' by lia. change (before 1) with 0%nat. pose proof (@inb_nth N ix i Hix Hi). rewrite Z.mod_small; lia.
    + unfold ker. cbn [get]. rewrite <- app_assoc. cbn [app]. destruct (last_two (repeat 0%Z (length L)) j o 0%Z) as (E1 & E2). rewrite E1, E2. reflexivity.
  - destruct layout as [L|].
    + destruct (HT L eq_refl) as (m & Hm). pose proof Hm as (_ & HLN & HLm & _). rewrite (@s2b_calc N L m Hm R logits _ Hlog). cbn [bind]. set (t := mkarr _ _).
      assert (Et : space_to_batch logits L = Ok t) by (rewrite (@s2b_calc N L m Hm R logits _ Hlog); reflexivity).
      destruct (@b2s_s2b R logits t N L m _ Hm Hlog Et) as (z & Ez & (Az & Bz)). rewrite (@b2s_calc N L m Hm R t (sum_of null_size sds)) in Ez by reflexivity. injection Ez as <-. cbn [shp get] in Az, Bz.
      destruct (@constraint_value J t (asize L :: m) (sum_of null_size sds)) as (c & Ec & Cc & Vc); [reflexivity | lia|]. rewrite Ec. cbn [bind]. rewrite LB in Cc. rewrite (@b2s_calc N L m Hm R c (sum_of bias_size sds)) by exact Cc.
      eexists; split; [reflexivity|]. split; [reflexivity|]. intros ix o Hix Ho. cbn [get]. pose proof (inb_length _ _ Hix) as Lix. rewrite firstn_pre by lia. rewrite nth_post by lia.
      change (tflat L (div_ix m ix) :: mod_ix m ix ++ [o]) with ((tflat L (div_ix m ix) :: mod_ix m ix) ++ [o]). rewrite Vc. unfold weight_of. f_equal. apply rsum_ext. intros j Hj. f_equal.
      rewrite <- (Bz (ix ++ [j])) by (apply inb_app_intro; [exact Hix | cbn; lia]). rewrite firstn_pre by lia. rewrite nth_post by lia. reflexivity.
    + destruct (@constraint_value J logits N (sum_of null_size sds)) as (c & Ec & Cc & Vc); [exact Hlog | lia|]. rewrite Ec, LB in *. exists c. split; [reflexivity|]. split; [exact Cc|]. intros ix o _ _. apply Vc.
Qed.
(** ** a list of layers fit for a grid *)
Record layer_fits (N : list nat) (pm : patch_method) (layout : option (list nat)) (sd : spatial_derivative) : Prop := {
  lf_len : length (sd_shape sd) = length N;
  lf_pos : forall i, (i < length N)%nat -> (0 < nth i (sd_shape sd) 0)%nat;
  lf_roll : sd_roll sd = repeat 0%Z (length N);
  lf_pm : sd_patches sd = pm;
  lf_tiles : sd_tiles sd = layout;
  lf_layer : exists d, interp_layer (sd_shape sd) d (sd_constraint sd);
  lf_size : (2 <= asize (sd_shape sd))%nat;
  lf_fits : layout_fits N (sd_shape sd) pm layout }.
Lemma zeros_sum n : fold_right Z.add 0%Z (repeat 0%Z n) = 0%Z. Proof. induction n as [|n IH]; [reflexivity|]. cbn. exact IH. Qed.
Lemma fit_layer N pm layout sd : layer_fits N pm layout sd -> fit_rows (sd_constraint sd) /\ sd_subspace_size sd = null_size sd /\ bias_size sd = asize (sd_shape sd) /\ pc_subspace_size (sd_constraint sd) = Z.of_nat (null_size sd).
Proof.
  intros H. destruct (lf_layer H) as (d & Hil). pose proof (lf_size H) as H2. unfold sd_subspace_size, null_size, bias_size. rewrite (il_size Hil), (il_null_length Hil), (il_bias_length Hil). split; [|repeat split; lia]. split.
  - intros E. pose proof (il_null_length Hil) as L. rewrite E in L. cbn in L. lia.
  - intros row Hr. rewrite (il_bias_length Hil). apply (il_row_length Hil). exact Hr.
Qed.
(** the weights of layer [p] in a list of layers, from all logits *)
Definition layer_weight (sds : list spatial_derivative) (logits : arr R) (p : nat) (sd : spatial_derivative) (ix t : list Z) : R :=
  weight_of (sd_constraint sd) (fun j => get logits (ix ++ [(j + Z.of_nat (sum_of null_size (firstn p sds)))%Z])) (tile_number (sd_shape sd) t).
Lemma sum_sizes N pm layout sds : Forall (layer_fits N pm layout) sds -> map sd_subspace_size sds = map null_size sds /\ map sd_stencil_size sds = map bias_size sds.
Proof. induction 1 as [|sd l H HF (I1 & I2)]; [auto|]. cbn [map]. rewrite I1, I2. destruct (fit_layer H) as (_ & E1 & E2 & _). rewrite E1, E2. auto. Qed.
Lemma firstn_sum (f : spatial_derivative -> nat) sds p : fold_right Nat.add 0%nat (firstn p (map f sds)) = sum_of f (firstn p sds).
Proof. unfold sum_of. rewrite firstn_map. reflexivity. Qed.
Lemma unfused_interpolates N pm layout sds logits p sd piece : Forall (layer_fits N pm layout) sds -> pm <> POther -> (forall i, (i < length N)%nat -> (0 < nth i N 0)%nat) -> channels_last logits N (sum_of null_size sds) ->
  nth_error sds p = Some sd -> nth_error (split_sizes (map sd_subspace_size sds) logits) p = Some piece -> interpolates N (sd_shape sd) (layer_weight sds logits p sd) (fun x => sd_call sd x piece).
Proof.
  intros HF Hpm HN Hlog Hsd Hpc x Hx. pose proof (nth_error_In _ _ Hsd) as Hin. rewrite Forall_forall in HF. pose proof (HF sd Hin) as Hf. destruct (sum_sizes (proj2 (Forall_forall _ _) HF)) as (Es & _). rewrite Es in Hpc.
  assert (Hp : (p < length sds)%nat) by (apply nth_error_Some; congruence). rewrite split_nth in Hpc by (rewrite map_length; exact Hp). injection Hpc as <-.
  rewrite (nth_map' _ _ sd 0%nat) by exact Hp. rewrite (nth_error_nth_d _ _ sd Hsd), firstn_sum. unfold channels_last in Hlog. rewrite Hlog, removelast_app1. set (piece := mkarr _ _). destruct (fit_layer Hf) as (Hfit & _ & Hb & Hn).
  unfold sd_call. change (shp piece) with (N ++ [null_size sd]). rewrite last_last, Hn, Z.eqb_refl. cbn [negb].
  destruct (@constraint_value (sd_constraint sd) piece N (null_size sd)) as (co & Eco & Cco & Vco); [reflexivity | reflexivity|]. rewrite Eco. cbn [bind]. 
  destruct (@sd_patches_ok x N sd Hx (lf_len Hf)) as (pa & Epa & Cpa & Gpa); [intros i Hi; split; [apply HN; exact Hi | apply (lf_pos Hf); exact Hi] | rewrite (lf_pm Hf), (lf_tiles Hf); apply (lf_fits Hf) | rewrite (lf_pm Hf); exact Hpm | rewrite (lf_roll Hf); apply zeros_sum|].
  rewrite Epa. cbn [bind]. change (length (pc_bias (sd_constraint sd))) with (bias_size sd) in Cco. rewrite Hb in Cco. apply (@apply_rep co pa x N (sd_shape sd) (layer_weight sds logits p sd) Cco Cpa); [|exact Gpa].
  intros ix t Hix Ht. rewrite Vco. unfold layer_weight, weight_of. f_equal. apply rsum_ext. intros j Hj. unfold piece. cbn [get]. rewrite last_last, removelast_app1. reflexivity.
Qed.
Lemma fused_interpolates N pm layout (D : list (ikey * spatial_derivative)) logits cc fp : Forall (fun kd => layer_fits N pm layout (snd kd)) D -> D <> [] -> pm <> POther -> (forall i, (i < length N)%nat -> (0 < nth i N 0)%nat) -> channels_last logits N (sum_of null_size (map snd D)) ->
  (forall L, layout = Some L -> exists m, tiled_by N L m) -> (cc = true -> layout <> None) ->
  (fp = true -> exists S m, (forall kd, In kd D -> sd_shape (snd kd) = S) /\ tiled_by N (match layout with Some L => L | None => repeat 1%nat (length N) end) m /\ forall i, (i < length N)%nat -> (nth i S 0 / 2 <= nth i m 0)%nat) ->
  exists T, fuse_spatial_derivative_layers D logits layout cc fp = Ok T /\ map fst T = map fst D /\
    forall p k sd, nth_error D p = Some (k, sd) -> exists f, nth_error T p = Some (k, f) /\ interpolates N (sd_shape sd) (layer_weight (map snd D) logits p sd) f.
Proof.
  intros HF HD Hpm HN Hlog HT Hcc Hfp. set (sds := map snd D) in *. assert (HFs : Forall (layer_fits N pm layout) sds) by (apply Forall_map; exact HF).
  destruct (@fused_coefficients_ok sds logits N layout cc Hlog HN HT Hcc) as (co & Eco & Cco & Vco).
  assert (Hne : sds <> []) by (unfold sds; destruct D; [congruence | discriminate]).
  unfold fuse_spatial_derivative_layers. fold sds.
  assert (Ez : existsb (fun sd => existsb (fun r => negb (r =? 0)%Z) (sd_roll sd)) sds = false).
  { apply Bool.not_true_iff_false. intros E. apply existsb_exists in E. destruct E as (sd & Hin & E). rewrite Forall_forall in HFs. rewrite (lf_roll (HFs sd Hin)) in E. apply existsb_exists in E. destruct E as (r & Hr & E). apply repeat_spec in Hr. subst r. discriminate. }
  destruct (sum_sizes HFs) as (Es1 & Es2). rewrite Eco, Es2. cbn [bind]. rewrite Ez.
  assert (Lpieces : length (split_sizes (map bias_size sds) co) = length D) by (rewrite split_length, map_length; unfold sds; rewrite map_length; reflexivity).
  match goal with |- exists T, match sds with [] => _ | _ :: _ => Ok ?M end = Ok T /\ _ => exists M end. split; [destruct sds; [congruence | reflexivity]|]. split.
  { set (k0 := ([], [], None) : ikey). set (sd0 := mkSD [] [] (mkPC [] [] 0) PRoll None). apply nth_ext with (d := k0) (d' := k0).
    - rewrite !map_length, !combine_length, seq_length, Lpieces. lia.
    - intros p Hp. rewrite !map_length, !combine_length, seq_length, Lpieces in Hp. apply nth_error_nth_d. rewrite map_map. rewrite nth_error_map.
      rewrite (nth_error_nth' _ (0%nat, (k0, sd0, mkarr [] (fun _ : list Z => 0)))) by (rewrite !combine_length, seq_length, Lpieces; lia).
      rewrite combine_nth by (rewrite combine_length, seq_length, Lpieces; lia). rewrite combine_nth by (symmetry; exact Lpieces). cbn [option_map fst snd]. f_equal. rewrite (nth_map' _ _ (k0, sd0) k0) by lia. reflexivity. }
  intros p k sd Hp. assert (Lp : (p < length D)%nat) by (apply nth_error_Some; congruence). assert (Lps : (p < length sds)%nat) by (unfold sds; rewrite map_length; exact Lp).
  assert (Hsd : nth_error sds p = Some sd) by (unfold sds; rewrite nth_error_map, Hp; reflexivity).
  pose proof (nth_error_In _ _ Hsd) as Hin. pose proof (proj1 (Forall_forall _ _) HFs sd Hin) as Hf. destruct (fit_layer Hf) as (Hfit & _ & Hb & Hn).
  assert (HFfit : Forall (fun sd => fit_rows (sd_constraint sd)) sds) by (eapply Forall_impl; [|exact HFs]; intros a Ha; apply (fit_layer Ha)).
  assert (Hle : (sum_of bias_size (firstn p sds) + bias_size sd <= sum_of bias_size sds)%nat).
  { clear -Hsd. revert p Hsd. induction sds as [|s l IH]; intros [|p] H; cbn in H; try discriminate; unfold sum_of in *; cbn [firstn map fold_right]; [injection H as ->; lia|]. specialize (IH p H). lia. }
  unfold channels_last in Cco.
  rewrite nth_error_map, (nth_error_nth' _ (0%nat, (k, sd, mkarr [] (fun _ : list Z => 0)))) by (rewrite !combine_length, seq_length, Lpieces; lia).
  rewrite combine_nth by (rewrite combine_length, seq_length, Lpieces; lia). rewrite combine_nth by (symmetry; exact Lpieces). rewrite seq_nth by exact Lp. rewrite (nth_error_nth_d _ _ (k, sd) Hp).
  assert (Epc := @split_nth (map bias_size sds) co p ltac:(rewrite map_length; exact Lps)). rewrite (nth_error_nth_d _ _ (mkarr [] (fun _ => 0)) Epc). cbn [option_map fst snd Nat.add].
  eexists; split; [reflexivity|]. rewrite Cco, removelast_app1, firstn_sum, (nth_map' _ _ sd 0%nat) by exact Lps. rewrite (nth_error_nth_d _ _ sd Hsd). intros x Hx.
  destruct fp.
  - destruct (Hfp eq_refl) as (S & m & HS & Hm & Hm2). assert (ES : sd_shape sd = S) by (apply (HS (k, sd)); apply (nth_error_In _ _ Hp)).
    assert (Eshapes : map sd_shape sds = repeat S (length sds)). { clear -HS. unfold sds. induction D as [|kd D' IH]; [reflexivity|]. cbn [map length repeat]. rewrite IH by (intros kd' H; apply HS; right; exact H). rewrite HS by (left; reflexivity). reflexivity. }
    assert (Ebias : forall l, (forall s, In s l -> In s sds) -> sum_of bias_size l = (length l * asize S)%nat).
    { intros l Hl. unfold sum_of. induction l as [|s l IH]; [reflexivity|]. cbn [map fold_right length]. rewrite IH by (intros s' H'; apply Hl; right; exact H'). assert (Hs : In s sds) by (apply Hl; left; reflexivity). destruct (fit_layer (proj1 (Forall_forall _ _) HFs s Hs)) as (_ & _ & Eb & _). rewrite Eb. assert (E : sd_shape s = S) by (unfold sds in Hs; apply in_map_iff in Hs; destruct Hs as (kd & <- & Hkd); apply HS; exact Hkd). rewrite E. lia. }
    rewrite Eshapes. destruct (@fused_patches_same_shape_lem x N S (length sds) layout m Hx) as (pa & Epa & Cpa & Vpa); [rewrite <- ES; apply (lf_len Hf) | lia | intros i Hi; split; [apply HN; exact Hi | rewrite <- ES; apply (lf_pos Hf); exact Hi] | exact Hm | exact Hm2|].
    change (fold_right Nat.mul 1%nat S) with (asize S) in *. rewrite Epa. cbn [bind]. unfold channels_last in Cpa. rewrite Cpa. rewrite (Ebias sds) by auto. rewrite shape_eqb_refl.
    rewrite split_nth by (rewrite map_length; exact Lps). eexists; split; [reflexivity|]. cbn [shp get sum_last]. rewrite (nth_map' _ _ sd 0%nat) by exact Lps. rewrite (nth_error_nth_d _ _ sd Hsd), firstn_sum, Hb, ES. rewrite !removelast_app1. unfold sum_last, channels_last; cbn [shp get]. rewrite !removelast_app1, last_last. split; [reflexivity|].
    intros ix Hix. rewrite !removelast_app1. rewrite <- (asum_flat S (fun k0 => _)). apply asum_ext. intros t Ht. rewrite !last_last, !removelast_app1. pose proof (tflat_range _ _ Ht) as Rt. rewrite (Ebias (firstn p sds)) by (intros s Hs; rewrite <- (firstn_skipn p sds); apply in_or_app; left; exact Hs). rewrite firstn_length, Nat.min_l by lia.
    f_equal.
    + unfold layer_weight. rewrite ES. rewrite <- (@joint_weight sds p (fun j => get logits (ix ++ [j])) (tile_number S t) sd HFfit Hsd) by (rewrite Hb, ES; apply tile_range; exact Ht). rewrite (tile_number_flat S t). rewrite (Ebias (firstn p sds)) by (intros s Hs; rewrite <- (firstn_skipn p sds); apply in_or_app; left; exact Hs). rewrite firstn_length, Nat.min_l by lia.
      rewrite Vco; [reflexivity | exact Hix|]. rewrite (Ebias sds) by auto. nia.
    + rewrite <- (Vpa ix (Z.of_nat p) t) by (auto; lia). f_equal. f_equal. f_equal. rewrite (tile_number_flat S t). nia.
  - destruct (@sd_patches_ok x N sd Hx (lf_len Hf)) as (pa & Epa & Cpa & Gpa); [intros i Hi; split; [apply HN; exact Hi | apply (lf_pos Hf); exact Hi] | rewrite (lf_pm Hf), (lf_tiles Hf); apply (lf_fits Hf) | rewrite (lf_pm Hf); exact Hpm | rewrite (lf_roll Hf); apply zeros_sum|].
    rewrite Epa. cbn [bind]. refine (@apply_rep _ pa x N (sd_shape sd) (layer_weight sds logits p sd) _ Cpa _ Gpa); [unfold channels_last; cbn [shp]; rewrite Hb; reflexivity|].
    intros ix t Hix Ht. cbn [get]. rewrite last_last, removelast_app1. pose proof (tile_range _ _ Ht) as Rt. rewrite Vco; [|exact Hix | rewrite Hb in Hle; lia]. unfold layer_weight. apply (@joint_weight sds p (fun j => get logits (ix ++ [j])) (tile_number (sd_shape sd) t) sd HFfit Hsd). rewrite Hb. exact Rt.
Qed.
