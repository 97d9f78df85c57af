(** * Learned interpolation: refusals, stencil sizes, separate networks (C71) *)
From Verif Require Import Prelude NdArr Grids_model Spec ArrayUtils_model ArrayUtilsProps PRep Networks_model Viscosities_model SkillProps Tiling_model SpecTile TilingProofs TilingProps Stencil_model SpecStencil StencilProofs StencilProps StencilLayerProps SpecVisc ViscosityProps SpecLInt LearnedInterp_model LearnedInterpBase LearnedInterpLayers LearnedInterpFuse LearnedInterpDict LearnedInterpEx LearnedInterpProps.
Set Implicit Arguments.
Local Open Scope R_scope.

Lemma one_cell_stencil_err solve svd h S shift n : h <> 0 -> (0 < n)%nat -> length S = n -> length shift = n -> (forall i, (i < n)%nat -> (0 < nth i S 0)%nat) -> asize S = 1%nat ->
  exists e, make_constraint solve svd (get_stencils S shift (repeat h n)) (repeat 0%nat n) FiniteVolume (repeat h n) 1 1 None = Err e.
Proof.
  intros Hh Hn LS Lsh Hp H1. destruct (make_constraint _ _ _ _ _ _ _ _ _) as [pc|e] eqn:E; [exfalso | eauto].
  rewrite get_stencils_interp in E by assumption. set (sts := map (fun i => istencil (nth i S 0%nat) (Q2R (nth i shift 0%Q)) h) (seq 0 n)) in *. assert (Lsts : length sts = n) by (unfold sts; rewrite map_length, seq_length; reflexivity).
  assert (Esz : map (@length R) sts = S). { apply (list_ext_nth 0%nat); [rewrite map_length; lia|]. intros i Hi. rewrite map_length in Hi. rewrite (nth_map' _ _ [] 0%nat) by exact Hi. unfold sts. rewrite (@nth_map_seq _ (fun i => istencil (nth i S 0%nat) (Q2R (nth i shift 0%Q)) h)) by lia. apply istencil_length. }
  destruct (make_inv _ _ _ _ _ _ _ _ _ E) as (h' & A & b & Hall & Hin & EA & _ & _ & _ & Hsz & Hnz & _). apply repeat_spec in Hin. subst h'.
  assert (Hz : max_deg 1 (repeat 0%nat n) = 0%nat) by (unfold max_deg; rewrite zsum_repeat; reflexivity).
  destruct (@rows_count sts FiniteVolume (repeat 0%nat n) 1%Z h A b (Some h) [repeat 0%nat n] EA (fv_cell Hh)) as (LA & HA).
  { intros e. rewrite Hz, Lsts. split.
    - intros [<- | []]. rewrite repeat_length, zsum_repeat. lia.
    - intros (H2 & H0). left. symmetry. rewrite <- H2. clear -H0. induction e as [|x e IH]; [reflexivity|]. cbn [fold_right length repeat] in *. rewrite <- IH by lia. f_equal. lia. }
  { cbn [map]. repeat constructor. intros []. }
  cbn [length] in LA. rewrite Esz, H1, LA in Hsz. apply Hnz. rewrite Hsz. reflexivity.
Qed.
Lemma foldM_each {A B} (f : A -> B -> result A) l : forall a r, foldM f a l = Ok r -> forall x, In x l -> exists a' r', f a' x = Ok r'.
Proof. induction l as [|y l IH]; intros a r H x Hx; [destruct Hx|]. cbn [foldM] in H. destruct (f a y) as [a'|] eqn:E; cbn [bind] in H; [|discriminate]. destruct Hx as [<- | Hx]; [eauto | eapply IH; eassumption]. Qed.
(* @prop C71 A learned interpolation with a stencil of a single cell, which leaves the network nothing to choose, is refused when it is built. *)
Lemma one_cell_interpolation_refused_lem : forall solve svd g v tags fn tower pm fuse_constraints fuse_patches constrain_with_conv layout h (k : ikey), gstep g = repeat h (gndim g) -> h <> 0 -> asked v tags k -> length (fst (fst k)) = gndim g ->
  length (fn k) = gndim g -> (0 < gndim g)%nat -> fold_right Nat.mul 1%nat (fn k) = 1%nat -> exists e, learned_interpolation solve svd g v tags fn tower pm fuse_constraints fuse_patches constrain_with_conv layout = Err e.
Proof.
  intros solve svd g v tags fn tower pm fc fp cc layout h k Hst Hh Hk Lk Lf Hd H1. unfold learned_interpolation. destruct (interpolation_layers _ _ _ _ _ _ _) as [D|e] eqn:E; [exfalso | exists e; reflexivity].
  unfold interpolation_layers in E. destruct (@foldM_each _ _ _ _ _ _ E k (proj2 (keys_asked v tags k) Hk)) as (a & r & Er). unfold make_spatial_derivative in Er. 
  assert (Lk2 : length (snd (fst k)) = gndim g). { destruct Hk as (u & j & t & _ & _ & _ & ->). cbn [fst snd] in *. unfold half_a_cell. rewrite upd_length. exact Lk. }
  destruct (@shift_length (fst (fst k)) (snd (fst k))) as (Lsh & _); [rewrite Lk, Lk2; reflexivity|]. destruct (get_roll_and_shift (fst (fst k)) (snd (fst k))) as (roll, shift) eqn:Ers. rewrite Hst in Er.
  assert (Hp : forall i, (i < gndim g)%nat -> (0 < nth i (fn k) 0)%nat). { clear -H1 Lf. rewrite <- Lf. clear Lf. induction (fn k) as [|s l IH]; intros i Hi; [cbn in Hi; lia|]. cbn [fold_right] in H1. apply Nat.eq_mul_1 in H1. destruct i as [|i]; cbn [nth]; [lia|]. apply IH; [apply H1 | cbn in Hi; lia]. }
  destruct (@one_cell_stencil_err solve svd h (fn k) shift (gndim g) Hh Hd Lf) as (e & Ee); [|exact Hp | exact H1|]. { cbn [snd] in Lsh. rewrite Lsh. exact Lk. } rewrite Ee in Er. discriminate.
Qed.
(* @prop C71 The stencil size of a learned interpolation: an integer size is used on every axis; the anisotropic variant uses it along the interpolated axis only, and one cell on the others. *)
Lemma learned_stencil_sizes_lem : forall d s o j t, (j < length o)%nat -> by_value (isotropic_sizes d s) /\ by_value (anisotropic_sizes s) /\
  isotropic_sizes d s (o, half_a_cell j o, t) = repeat s d /\ anisotropic_sizes s (o, half_a_cell j o, t) = upd j s (repeat 1%nat (length o)).
Proof.
  intros d s o j t Hj. split; [intros o1 o2 p1 p2 t1 _ _; reflexivity|]. split; [|split; [reflexivity|]].
  - intros o1 o2 p1 p2 t1 H1 H2. unfold anisotropic_sizes. cbn [fst snd]. revert p1 p2 H2. induction H1 as [|x y o1 o2 Hx H1 IH]; intros p1 p2 H2; [reflexivity|]. destruct H2 as [|a b p1 p2 Ha H2]; [reflexivity|]. cbn [combine map fst snd]. rewrite (IH _ _ H2). f_equal.
    destruct (Qeq_bool x a) eqn:E1, (Qeq_bool y b) eqn:E2; auto; [apply Qeq_bool_iff in E1; apply Qeq_bool_neq in E2; exfalso; apply E2; rewrite <- Hx, <- Ha; exact E1 | apply Qeq_bool_neq in E1; apply Qeq_bool_iff in E2; exfalso; apply E1; rewrite Hx, Ha; exact E2].
  - unfold anisotropic_sizes. cbn [fst snd]. unfold half_a_cell. revert j Hj. induction o as [|x o IH]; intros [|j] Hj; cbn [length] in Hj; try lia; cbn [nth upd combine map fst snd length repeat].
    + f_equal; [destruct (Qeq_bool x (x + (1 # 2))) eqn:E; [exfalso | reflexivity]; apply Qeq_bool_iff in E; clear -E; destruct x as [a b]; unfold Qeq in E; cbn in E; nia|]. clear. induction o as [|y o IH]; [reflexivity|]. cbn [combine map fst snd length repeat]. rewrite Qeq_bool_refl, IH. reflexivity.
    + rewrite Qeq_bool_refl. f_equal. apply IH. lia.
Qed.
(** ** one network for each pair of offsets *)
Lemma concat_last (x : arr R) l N c : channels_last x N c -> Forall (fun a => channels_last a N 1) l -> exists y, concatenate (x :: l) (-1) = Ok y /\ channels_last y N (c + length l).
Proof.
  intros Hx HF. unfold channels_last in *. unfold concatenate. assert (En : ndim x = Datatypes.S (length N)) by (unfold ndim; rewrite Hx, app_length; cbn [length]; lia). rewrite En, last_axis. cbn [bind].
  assert (Hall : forall b, In b (x :: l) -> exists k, shp b = N ++ [k]) by (intros b [<- | Hb]; [eauto | rewrite Forall_forall in HF; eauto]).
  replace (forallb _ (x :: l)) with true.
  - eexists; split; [reflexivity|]. cbn [shp]. rewrite Hx. assert (Es : fold_right Nat.add 0%nat (map (fun b => nth (length N) (shp b) 0%nat) (x :: l)) = (c + length l)%nat).
    { cbn [map fold_right]. rewrite Hx, app_nth2, Nat.sub_diag by lia. cbn [nth]. f_equal. clear -HF. induction HF as [|a l Ha HF IH]; [reflexivity|]. cbn [map fold_right length]. rewrite IH, Ha, app_nth2, Nat.sub_diag by lia. reflexivity. }
    rewrite Es. clear. induction N as [|n N IH]; [reflexivity|]. cbn [length upd app]. f_equal. exact IH.
  - symmetry. apply forallb_forall. intros b Hb. destruct (Hall b Hb) as (k & Ek). unfold ndim. rewrite Ek, Hx, !app_length. cbn [length]. replace (length N + 1)%nat with (Datatypes.S (length N)) by lia. rewrite Nat.eqb_refl. cbn [andb]. apply forallb_forall. intros j Hj. apply in_seq in Hj. destruct (Nat.eqb_spec j (length N)) as [_|Hne]; [reflexivity|]. cbn [orb]. rewrite !app_nth1 by lia. apply Nat.eqb_refl.
Qed.
(* @prop C71 Learned interpolation with a separate network for each pair of offsets: to its own offset a field is returned unchanged; half a cell along an axis, every value is an average of the cells of the stencil around the face, with weights that add up to 1, whatever the networks. *)
Lemma individual_interpolation_averages_lem : forall solve svd g s tower_of c v j offset, correct_solver solve -> solves_small solve -> correct_svd svd -> (exists h, h <> 0 /\ gstep g = repeat h (gndim g)) ->
  (forall i, (i < gndim g)%nat -> (0 < nth i (gshape g) 0)%nat) -> (2 <= s)%nat -> (j < gndim g)%nat -> (forall u, In u v -> shp (gdata (garray u)) = gshape g) ->
  (forall o p, keeps_grid (gshape g) (1 + length v) (tower_of (o, p))) -> cell_data g (goff (garray c)) c -> length (goff (garray c)) = gndim g ->
  individual_interpolation solve svd g s tower_of c (goff (garray c)) v = Ok c /\
  (off_eq offset (half_a_cell j (goff (garray c))) -> exists w r, (forall ix, asum (repeat s (gndim g)) (w ix) = 1) /\ individual_interpolation solve svd g s tower_of c offset v = Ok r /\
     carried g c offset (fun ix => asum (repeat s (gndim g)) (fun t => w ix t * get (gdata (garray c)) (cell_at (gshape g) (repeat (before s) (gndim g)) ix t))) r).
Proof.
  intros solve svd g s tower_of c v j offset Hsol Hsm Hsvd (h & Hh & Hst) HN Hs Hj Hv Hnet (_ & C2 & C3) Lc. split; [unfold individual_interpolation; rewrite (proj2 (off_eqb_iff _ _) (off_eq_refl _)); reflexivity|].
  intros Hoff. set (n := gndim g) in *. set (S := repeat s n). assert (LS : length S = n) by apply repeat_length. assert (PS : forall i, (i < n)%nat -> (0 < nth i S 0)%nat) by (intros i Hi; unfold S; rewrite nth_repeat' by exact Hi; lia).
  assert (AS : (2 <= asize S)%nat). { unfold S. assert (E : asize (repeat s n) = (s ^ n)%nat) by (clear; induction n as [|m IH]; [reflexivity|]; change (asize (repeat s (Datatypes.S m))) with (s * asize (repeat s m))%nat; rewrite IH; reflexivity). rewrite E. destruct n as [|m]; [lia|]. cbn [Nat.pow]. assert (0 < s ^ m)%nat by (apply Nat.neq_0_lt_0; apply Nat.pow_nonzero; lia). nia. }
  unfold individual_interpolation. rewrite (@half_not_same j (goff (garray c))) by (auto using off_eq_refl; lia). unfold spatial_derivative_call. fold n. fold S. rewrite Hst.
  destruct (@half_layer solve svd h S (goff (garray c)) offset j n PRoll None Hsol Hsm Hsvd Hh Hj LS Lc Hoff PS AS) as (pc & Epc & Hil). unfold make_spatial_derivative in Epc. destruct (get_roll_and_shift (goff (garray c)) offset) as (roll, shift). destruct (make_constraint _ _ _ _ _ _ _ _ _) as [pc'|]; cbn [bind] in Epc |- *; [|discriminate]. injection Epc as -> ->.
  set (x := expand_last (gdata (garray c))). assert (Cx : channels_last x (gshape g) 1) by (unfold channels_last, x, expand_last; cbn [shp]; rewrite C2; reflexivity).
  set (sd := mkSD S (repeat 0%Z n) pc PRoll None). destruct (@sd_patches_ok x (gshape g) sd Cx) as (pa & Epa & Cpa & Gpa); [exact LS | intros i Hi; split; [apply HN; exact Hi | apply PS; exact Hi] | intros E; discriminate | discriminate | apply zeros_sum|].
  unfold sd_extract_patches in Epa. cbn [sd sd_roll sd_shape sd_patches sd_tiles] in Epa. rewrite Epa. cbn [bind].
  destruct (@concat_last (roll_flat x (repeat 0%Z n)) (map (fun aux => roll_flat aux (repeat 0%Z n)) (map (fun u => expand_last (gdata (garray u))) v)) (gshape g) 1 Cx) as (z & Ez & Cz).
  { apply Forall_map, Forall_map. apply Forall_forall. intros u Hu. unfold channels_last, roll_flat, expand_last. cbn [shp]. rewrite (Hv u Hu). reflexivity. }
  rewrite Ez. cbn [bind]. rewrite !map_length in Cz. destruct (Hnet (goff (garray c)) offset (Z.to_nat (pc_subspace_size pc)) z Cz) as (lg & Elg & Clg). rewrite Elg. cbn [bind].
  destruct (@constraint_value pc lg (gshape g) (Z.to_nat (pc_subspace_size pc)) Clg) as (co & Eco & Cco & Vco); [rewrite (il_size Hil), (il_null_length Hil); lia|]. rewrite Eco. cbn [bind]. rewrite (il_bias_length Hil) in Cco.
  set (w := fun ix t => weight_of pc (fun jj => get lg (ix ++ [jj])) (tile_number S t)). destruct (@apply_rep co pa x (gshape g) S w Cco Cpa) as (y & Ey & Cy & Vy); [intros ix t _ _; apply Vco | exact Gpa|]. rewrite Ey. cbn [bind].
  unfold Viscosities_model.squeeze_last. unfold channels_last in Cy. rewrite Cy, last_last, removelast_last. cbn [Nat.eqb bind]. unfold mk_gvar. cbn [ggrid]. rewrite C3, Nat.eqb_refl.
  exists w. eexists; split; [intros ix; unfold w; eapply weights_sum; [|exact Hil]; intros i Hi; apply PS; lia|]. split; [reflexivity|]. unfold carried. cbn [gbc garray ggrid goff gdata shp get]. repeat (split; [reflexivity|]). intros ix Hix. rewrite Vy by exact Hix. apply asum_ext. intros t Ht. f_equal. unfold x, expand_last. cbn [get]. rewrite removelast_last.
  replace (map before S) with (repeat (before s) n) by (unfold S; clear; induction n as [|m IH]; [reflexivity|]; cbn [repeat map]; rewrite IH; reflexivity). reflexivity.
Qed.
(* @ex *)
Lemma one_cell_interpolation_refused_ex_lem : exists e, learned_interpolation cramer (cand_svd []) li_g li_v [None; Some 0%nat] (anisotropic_sizes 1) (li_tower li_c) PRoll false false false None = Err e.
Proof. apply (@one_cell_interpolation_refused_lem cramer (cand_svd []) li_g li_v [None; Some 0%nat] (anisotropic_sizes 1) (li_tower li_c) PRoll false false false None 1 _ eq_refl R1_neq_R0 li_asked); [reflexivity | reflexivity | cbn; lia | reflexivity]. Qed.
(* @ex *)
Lemma learned_stencil_sizes_ex_lem : anisotropic_sizes 4 (li_o 0, half_a_cell 1 (li_o 0), None) = [1; 4]%nat.
Proof. exact (proj2 (proj2 (proj2 (@learned_stencil_sizes_lem 2 4 (li_o 0) 1 None ltac:(cbn; lia))))). Qed.
(* @ex *)
Lemma individual_interpolation_averages_ex_lem : exists w r, (forall ix, asum [2; 2]%nat (w ix) = 1) /\ individual_interpolation cramer (cand_svd []) li_g 2 (fun _ => li_tower li_c) (li_u li_c (li_o 0)) [3 # 2; 1 # 2]%Q li_v = Ok r /\
  get (gdata (garray r)) [3%Z; 1%Z] = asum [2; 2]%nat (fun t => w [3%Z; 1%Z] t * li_c (cell_at [4; 2]%nat [0; 0]%nat [3%Z; 1%Z] t)).
Proof.
  destruct (@individual_interpolation_averages_lem cramer (cand_svd []) li_g 2 (fun _ => li_tower li_c) (li_u li_c (li_o 0)) li_v 0 [3 # 2; 1 # 2]%Q cramer_correct cramer_small (cand_svd_correct _)) as (_ & H); [exists 1; split; [lra | reflexivity] | intros [|[|i]] Hi; cbn in *; lia | lia | cbn; lia | intros u [<- | [<- | []]]; reflexivity | intros o p; apply li_keeps | apply (li_data li_c 0) | reflexivity|].
  destruct H as (w & r & Hw & Er & _ & _ & _ & _ & R); [repeat constructor|]. exists w, r. split; [exact Hw|]. split; [exact Er|]. apply R. cbn. lia.
Qed.
