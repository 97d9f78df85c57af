(** * Learned interpolation (C71) *)
From Verif Require Import Prelude NdArr Grids_model Spec ArrayUtils_model ArrayUtilsProps PRep Networks_model Viscosities_model SkillProps Tiling_model SpecTile TilingProofs TilingProps Stencil_model SpecStencil StencilProofs StencilProps StencilLayerProps SpecVisc ViscosityProps SpecLInt LearnedInterp_model LearnedInterpBase LearnedInterpLayers LearnedInterpFuse LearnedInterpDict LearnedInterpEx.
Set Implicit Arguments.
Local Open Scope R_scope.

Definition table_weight (D : list (ikey * spatial_derivative)) (logits : arr R) (k : ikey) (ix t : list Z) : R :=
  match nth_error D (findpos (map fst D) k) with Some (_, sd) => layer_weight (map snd D) logits (findpos (map fst D) k) sd ix t | None => 0 end.
(** an interpolator table that is linear with given weights *)
Definition table_ok (N : list nat) (D : list (ikey * spatial_derivative)) (logits : arr R) (T : list (ikey * (arr R -> result (arr R)))) : Prop :=
  map fst T = map fst D /\ forall p k sd, nth_error D p = Some (k, sd) -> exists f, nth_error T p = Some (k, f) /\ interpolates N (sd_shape sd) (layer_weight (map snd D) logits p sd) f.
Lemma half_not_same j o p q : (j < length o)%nat -> off_eq p o -> off_eq q (half_a_cell j o) -> off_eqb p q = false.
Proof.
  intros Hj Hp Hq. apply Bool.not_true_iff_false. intros E. apply off_eqb_iff in E. pose proof (off_eq_nth j Hp) as E1. pose proof (off_eq_nth j Hq) as E2. pose proof (off_eq_nth j E) as E3. unfold half_a_cell in E2. rewrite nth_upd_same in E2 by exact Hj. rewrite E3, E2 in E1. clear -E1. destruct (nth j o 0%Q) as [a b]. unfold Qeq in E1. cbn in E1. nia.
Qed.
Lemma half_cong j o o' : off_eq o o' -> off_eq (half_a_cell j o) (half_a_cell j o').
Proof. intros H. apply off_eq_upd; [exact H|]. rewrite (off_eq_nth j H). reflexivity. Qed.
(** one call *)
Lemma table_call N D logits T c offset tg k j k' sd : table_ok N D logits T -> key_eqb (goff (garray c), offset, tg) k = true -> (j < length (fst (fst k)))%nat -> snd (fst k) = half_a_cell j (fst (fst k)) ->
  nth_error D (findpos (map fst D) k) = Some (k', sd) -> shp (gdata (garray c)) = N -> length (btypes (gbc c)) = gndim (ggrid (garray c)) ->
  exists r, learned_call T c offset tg = Ok r /\ gbc r = gbc c /\ ggrid (garray r) = ggrid (garray c) /\ goff (garray r) = offset /\ shp (gdata (garray r)) = N /\
    forall ix, inb N ix -> get (gdata (garray r)) ix = asum (sd_shape sd) (fun t => table_weight D logits k ix t * get (gdata (garray c)) (cell_at N (map before (sd_shape sd)) ix t)).
Proof.
  intros (HT1 & HT2) Hk Hj Ek Hn Hs Hb. unfold learned_call. unfold mk_gvar at 1. cbn [ggrid garray]. rewrite Hb, Nat.eqb_refl. cbn [bind garray goff gdata gbc ggrid].
  pose proof (proj1 (key_eqb_iff _ _) Hk) as (K1 & K2 & _). cbn [fst snd] in K1, K2. rewrite (@half_not_same j (fst (fst k))) by (auto; rewrite <- Ek; exact K2).
  rewrite od_get_pos, HT1, (findpos_cong _ _ _ Hk). destruct (HT2 _ _ _ Hn) as (f & Ef & Hf). rewrite Ef. cbn [option_map snd].
  destruct (Hf (expand_last (gdata (garray c)))) as (y & Ey & Cy & Vy); [unfold channels_last, expand_last; cbn [shp]; rewrite Hs; reflexivity|]. rewrite Ey. cbn [bind]. unfold Viscosities_model.squeeze_last. unfold channels_last in Cy. rewrite Cy, last_last, removelast_last. cbn [Nat.eqb bind].
  unfold mk_gvar. cbn [ggrid]. rewrite Hb, Nat.eqb_refl. eexists; split; [reflexivity|]. cbn [gbc garray ggrid goff gdata shp get]. repeat (split; [reflexivity|]). intros ix Hix. rewrite Vy by exact Hix. apply asum_ext. intros t Ht. unfold table_weight. rewrite Hn. f_equal. unfold expand_last. cbn [get]. rewrite removelast_last. reflexivity.
Qed.
Lemma stack_data (v : list gvar) N : v <> [] -> (forall u, In u v -> shp (gdata (garray u)) = N) -> exists x, stack_last (map (fun u => gdata (garray u)) v) = Ok x /\ channels_last x N (length v).
Proof.
  intros Hv H. destruct v as [|u v]; [congruence|]. unfold stack_last. cbn [map]. replace (forallb _ _) with true.
  - eexists; split; [reflexivity|]. unfold channels_last. cbn [shp length]. rewrite map_length, H by (left; reflexivity). reflexivity.
  - symmetry. apply forallb_forall. intros b Hb. change (gdata (garray u) :: map (fun u0 => gdata (garray u0)) v) with (map (fun u0 => gdata (garray u0)) (u :: v)) in Hb. apply in_map_iff in Hb. destruct Hb as (u' & <- & Hu'). rewrite (H u') by exact Hu'. rewrite H by (left; reflexivity). apply shape_eqb_refl.
Qed.
Lemma layer_relabel pm layout D logits p sd ix t : layer_weight (map snd (map (fun kd : ikey * spatial_derivative => (fst kd, relabel pm layout (snd kd))) D)) logits p (relabel pm layout sd) ix t = layer_weight (map snd D) logits p sd ix t.
Proof.
  unfold layer_weight. cbn [relabel sd_shape sd_constraint]. replace (sum_of null_size (firstn p (map snd (map (fun kd => (fst kd, relabel pm layout (snd kd))) D)))) with (sum_of null_size (firstn p (map snd D))); [reflexivity|].
  unfold sum_of. rewrite map_map. cbn [snd]. rewrite <- !firstn_map, !map_map. reflexivity.
Qed.
Lemma interpolates_ext N S w w' f : (forall ix t, inb N ix -> w ix t = w' ix t) -> interpolates N S w f -> interpolates N S w' f.
Proof. intros E H x Hx. destruct (H x Hx) as (y & E1 & E2 & E3). exists y. split; [exact E1|]. split; [exact E2|]. intros ix Hix. rewrite E3 by exact Hix. apply asum_ext. intros t _. rewrite E by exact Hix. reflexivity. Qed.

Section Core.
Variables (solve : list (list R) -> list R -> result (list R)) (svd : list (list R) -> list (list R)) (g : grid) (v : list gvar) (tags : list (option nat))
  (fn : list Q * list Q * option nat -> list nat) (tower : nat -> arr R -> result (arr R)) (h : R).
Hypothesis Hsol : correct_solver solve.
Hypothesis Hsm : solves_small solve.
Hypothesis Hsvd : correct_svd svd.
Hypothesis Hstep : gstep g = repeat h (gndim g).
Hypothesis Hh : h <> 0.
Hypothesis Hd : (0 < gndim g)%nat.
Hypothesis HN : forall i, (i < gndim g)%nat -> (0 < nth i (gshape g) 0)%nat.
Hypothesis Hv : v <> [].
Hypothesis Htags : tags <> [].
Hypothesis Hu : forall u, In u v -> shp (gdata (garray u)) = gshape g /\ length (goff (garray u)) = gndim g.
Hypothesis Hfn : by_value fn.
Hypothesis Hsz : forall k, asked v tags k -> length (fn k) = gndim g /\ (forall i, (i < gndim g)%nat -> (0 < nth i (fn k) 0)%nat) /\ (2 <= fold_right Nat.mul 1 (fn k))%nat.
Hypothesis Hnet : keeps_grid (gshape g) (length v) tower.

Lemma asked_layer (k k0 : ikey) j pm layout : asked v tags k -> key_eqb k0 k = true -> snd (fst k0) = half_a_cell j (fst (fst k0)) -> (j < gndim g)%nat ->
  exists pc, make_spatial_derivative solve svd (fn k) (fst (fst k)) (snd (fst k)) (repeat 0%nat (gndim g)) (gstep g) pm layout FiniteVolume = Ok (mkSD (fn k) (repeat 0%Z (gndim g)) pc pm layout) /\ interp_layer (fn k) (half_shift j) pc.
Proof.
  intros Hk He Ej Hj. destruct (Hsz Hk) as (L & P & A). rewrite Hstep. destruct Hk as (u & j0 & t & H1 & H2 & H3 & ->). cbn [fst snd] in *. pose proof (proj1 (key_eqb_iff _ _) He) as (K1 & K2 & _). cbn [fst snd] in K1, K2.
  apply half_layer; auto. { apply Hu. exact H1. } eapply off_eq_trans; [apply off_eq_sym; exact K2|]. rewrite Ej. apply half_cong. exact K1.
Qed.
Lemma asked_axis (k : ikey) : asked v tags k -> exists j, (j < gndim g)%nat /\ length (fst (fst k)) = gndim g /\ snd (fst k) = half_a_cell j (fst (fst k)).
Proof. intros (u & j & t & H1 & H2 & H3 & ->). cbn [fst snd]. exists j. pose proof (proj2 (Hu _ H1)) as L. rewrite L in H2. auto. Qed.
Lemma fn_same k k' : key_eqb k k' = true -> fn k = fn k'.
Proof. intros H. apply key_eqb_iff in H. destruct k as ((o, p), t), k' as ((o', p'), t'). cbn [fst snd] in H. destruct H as (H1 & H2 & <-). apply Hfn; assumption. Qed.
Lemma learned_core : exists D logits inputs, interpolation_layers solve svd g (interpolation_keys v tags) fn PRoll None = Ok D /\ stack_last (map (fun u => gdata (garray u)) v) = Ok inputs /\ channels_last inputs (gshape g) (length v) /\ tower (sum_of null_size (map snd D)) inputs = Ok logits /\ channels_last logits (gshape g) (sum_of null_size (map snd D)) /\
  (forall k j, asked v tags k -> (j < gndim g)%nat -> snd (fst k) = half_a_cell j (fst (fst k)) -> exists k' sd, nth_error D (findpos (map fst D) k) = Some (k', sd) /\ sd_shape sd = fn k /\ interp_layer (fn k) (half_shift j) (sd_constraint sd)) /\
  (forall kd, In kd D -> exists k, asked v tags k /\ key_eqb (fst kd) k = true) /\
  forall pm fc fp cc layout, options_fit (gshape g) (fun S => exists k, asked v tags k /\ fn k = S) pm fc fp cc layout ->
    exists T, learned_interpolation solve svd g v tags fn tower pm fc fp cc layout = Ok T /\ table_ok (gshape g) D logits T.
Proof.
  destruct (@layers_ok solve svd g fn (interpolation_keys v tags)) as (D & ED & D1 & D2).
  { intros k Hk. apply keys_asked in Hk. destruct (asked_axis Hk) as (j & Hj & _ & Ej). destruct (@asked_layer k k j PRoll None Hk (key_refl k) Ej Hj) as (pc & E & _). eexists. exact E. }
  destruct (@stack_data v (gshape g) Hv) as (inputs & Ein & Cin); [intros u Hin; apply Hu; exact Hin|]. destruct (Hnet (sum_of null_size (map snd D)) Cin) as (logits & Elog & Clog).
  assert (Hlayer : forall pm layout, pm <> POther -> (pm = PConv -> forall k, asked v tags k -> has_room (gshape g) layout (fn k)) -> Forall (fun kd => layer_fits (gshape g) pm layout (snd kd)) (map (fun kd => (fst kd, relabel pm layout (snd kd))) D)).
  { intros pm layout Hpm Hroom. apply Forall_map. apply Forall_forall. intros kd Hin. cbn [snd]. destruct (D1 kd Hin) as (k & Hk & Ek & Emk). apply keys_asked in Hk. destruct (asked_axis Hk) as (j & Hj & _ & Ej). destruct (@asked_layer k k j PRoll None Hk (key_refl k) Ej Hj) as (pc & E & Hil). rewrite E in Emk. injection Emk as <-. destruct (Hsz Hk) as (L & P & A).
    constructor; cbn [relabel sd_shape sd_roll sd_patches sd_tiles sd_constraint]; auto; [eexists; exact Hil|]. intros Epm. apply Hroom; assumption. }
  exists D, logits, inputs. split; [exact ED|]. split; [exact Ein|]. split; [exact Cin|]. split; [exact Elog|]. split; [exact Clog|]. split.
  - intros k j Hk Hj Ej. destruct (D2 k (proj2 (keys_asked v tags k) Hk)) as (kd & Hin & Ekd). destruct (@findpos_found _ D k kd Hin Ekd) as (k' & sd & En & Ek'). exists k', sd. split; [exact En|].
    destruct (D1 (k', sd) (nth_error_In _ _ En)) as (k2 & Hk2 & Ek2 & Emk). cbn [fst snd] in Ek2, Emk. apply keys_asked in Hk2. assert (E2 : key_eqb k k2 = true) by (eapply key_trans; [apply key_sym; exact Ek' | exact Ek2]).
    destruct (@asked_layer k2 k j PRoll None Hk2 E2 Ej Hj) as (pc & E & Hil). rewrite E in Emk. injection Emk as <-. cbn [sd_shape sd_constraint]. rewrite (@fn_same k k2 E2). auto.
  - split; [intros kd Hin; destruct (D1 kd Hin) as (k & Hk & Ek & _); exists k; split; [apply keys_asked; exact Hk | exact Ek]|].
    intros pm fc fp cc layout (Hpm & Hroom & Hopt). set (D' := map (fun kd => (fst kd, relabel pm layout (snd kd))) D).
    assert (ED' : interpolation_layers solve svd g (interpolation_keys v tags) fn pm layout = Ok D') by (apply (@layers_relabel solve svd g fn pm layout (interpolation_keys v tags) [] D); exact ED).
    assert (HF : Forall (fun kd => layer_fits (gshape g) pm layout (snd kd)) D') by (apply Hlayer; [exact Hpm|]; intros E k Hk; apply Hroom; [exact E | exists k; auto]).
    assert (HFs : Forall (layer_fits (gshape g) pm layout) (map snd D')) by (apply Forall_map; exact HF). destruct (sum_sizes HFs) as (Es1 & _).
    assert (Esum : sum_of null_size (map snd D') = sum_of null_size (map snd D)) by (unfold sum_of, D'; rewrite !map_map; reflexivity).
    unfold learned_interpolation. rewrite ED'. cbn [bind]. rewrite Ein. cbn [bind]. rewrite <- (map_map snd sd_subspace_size D'), Es1. fold (sum_of null_size (map snd D')). rewrite Esum, Elog. cbn [bind].
    assert (Back : forall T, map fst T = map fst D' -> (forall p k sd, nth_error D' p = Some (k, sd) -> exists f, nth_error T p = Some (k, f) /\ interpolates (gshape g) (sd_shape sd) (layer_weight (map snd D') logits p sd) f) -> table_ok (gshape g) D logits T).
    { intros T HT1 HT2. split; [rewrite HT1; unfold D'; rewrite map_map; reflexivity|]. intros p k sd Hp. destruct (HT2 p k (relabel pm layout sd)) as (f & Ef & Hf); [unfold D'; rewrite nth_error_map, Hp; reflexivity|]. exists f. split; [exact Ef|]. cbn [relabel sd_shape] in Hf. eapply interpolates_ext; [|exact Hf]. intros ix t _. apply layer_relabel. }
    destruct fc.
    + destruct (Hopt eq_refl) as (HL & Hcc & Hfp). destruct (@fused_interpolates (gshape g) pm layout D' logits cc fp HF) as (T & ET & HT1 & HT2); [| exact Hpm | exact HN | rewrite Esum; exact Clog | exact HL | exact Hcc | | exists T; split; [exact ET | apply Back; assumption]].
      * destruct v as [|u v0] eqn:Ev; [congruence|]. destruct tags as [|t0 tags0] eqn:Et; [congruence|]. destruct (D2 (goff (garray u), half_a_cell 0 (goff (garray u)), t0)) as (kd & Hin & _).
        { apply keys_asked. exists u, 0%nat, t0. split; [left; reflexivity|]. split; [rewrite (proj2 (Hu _ (or_introl eq_refl))); exact Hd|]. split; [left; reflexivity | reflexivity]. }
        unfold D'. destruct D; [destruct Hin | discriminate].
      * intros Efp. destruct (Hfp Efp) as (S & HS & m & Hm1 & Hm2). exists S, m. split; [|split; assumption]. intros kd Hin. unfold D' in Hin. apply in_map_iff in Hin. destruct Hin as (kd0 & <- & Hin). cbn [snd relabel sd_shape]. destruct (D1 kd0 Hin) as (k & Hk & _ & Emk). apply keys_asked in Hk. destruct (asked_axis Hk) as (j & Hj & _ & Ej). destruct (@asked_layer k k j PRoll None Hk (key_refl k) Ej Hj) as (pc & E & _). rewrite E in Emk. injection Emk as <-. cbn [sd_shape]. apply HS. exists k. auto.
    + eexists; split; [reflexivity|]. apply Back.
      * set (sizes := map null_size (map snd D')). assert (Lsp : length (split_sizes sizes logits) = length D') by (rewrite split_length; unfold sizes; rewrite !map_length; reflexivity). clear -Lsp. clearbody sizes. revert Lsp. generalize (split_sizes sizes logits) as l. clearbody D'. induction D' as [|kd D' IH]; intros [|a l] L; cbn in L; try lia; [reflexivity|]. cbn [combine map fst]. rewrite IH by lia. reflexivity.
      * intros p k sd Hp. assert (Lp : (p < length D')%nat) by (apply nth_error_Some; congruence). assert (Hsd : nth_error (map snd D') p = Some sd) by (rewrite nth_error_map, Hp; reflexivity).
        set (piece := nth p (split_sizes (map null_size (map snd D')) logits) (mkarr [] (fun _ => 0))). assert (Ep : nth_error (split_sizes (map null_size (map snd D')) logits) p = Some piece) by (apply nth_error_nth'; rewrite split_length, !map_length; exact Lp).
        exists (fun x => sd_call sd x piece). split.
        -- rewrite nth_error_map. assert (Ec : nth_error (combine D' (split_sizes (map null_size (map snd D')) logits)) p = Some ((k, sd), piece)).
           { clearbody piece. clear -Hp Ep. revert Hp Ep. generalize (split_sizes (map null_size (map snd D')) logits) as l. clearbody D'. revert p. induction D' as [|kd D0 IH]; intros [|p] [|a l] H1 H2; cbn in *; try discriminate; [congruence | apply IH; assumption]. }
           rewrite Ec. reflexivity.
        -- apply (@unfused_interpolates (gshape g) pm layout (map snd D') logits p sd piece HFs Hpm HN); [rewrite Esum; exact Clog | exact Hsd | rewrite Es1; exact Ep].
Qed.
End Core.
Lemma learned_core' solve svd g v tags fn tower : learned_setting solve svd g v tags fn tower -> exists D logits inputs, interpolation_layers solve svd g (interpolation_keys v tags) fn PRoll None = Ok D /\ stack_last (map (fun u => gdata (garray u)) v) = Ok inputs /\ channels_last inputs (gshape g) (length v) /\ tower (sum_of null_size (map snd D)) inputs = Ok logits /\ channels_last logits (gshape g) (sum_of null_size (map snd D)) /\
  (forall k j, asked v tags k -> (j < gndim g)%nat -> snd (fst k) = half_a_cell j (fst (fst k)) -> exists k' sd, nth_error D (findpos (map fst D) k) = Some (k', sd) /\ sd_shape sd = fn k /\ interp_layer (fn k) (half_shift j) (sd_constraint sd)) /\
  (forall kd, In kd D -> exists k, asked v tags k /\ key_eqb (fst kd) k = true) /\
  forall pm fc fp cc layout, options_fit (gshape g) (fun S => exists k, asked v tags k /\ fn k = S) pm fc fp cc layout ->
    exists T, learned_interpolation solve svd g v tags fn tower pm fc fp cc layout = Ok T /\ table_ok (gshape g) D logits T.
Proof. intros (H1 & H2 & H3 & (h & H4 & H5) & H6 & H7 & H8 & H9 & H10 & H11 & H12 & H13). eapply learned_core; eassumption. Qed.
(* @prop C71 A learned interpolation, whatever the network: every value it returns half a cell away is an average of the cells of a stencil around the face, with weights that add up to 1 and do not depend on the interpolated quantity nor on the implementation options (fused constraints, fused patches, 1x1 convolutions, patch extraction method, tile layout). *)
Lemma learned_interpolation_averages_lem : forall solve svd g v tags fn tower, learned_setting solve svd g v tags fn tower ->
  exists W : list Q * list Q * option nat -> list Z -> list Z -> R,
    (forall k ix, asked v tags k -> asum (fn k) (W k ix) = 1) /\
    forall pm fuse_constraints fuse_patches constrain_with_conv layout, options_fit (gshape g) (fun S => exists k, asked v tags k /\ fn k = S) pm fuse_constraints fuse_patches constrain_with_conv layout ->
    exists T, learned_interpolation solve svd g v tags fn tower pm fuse_constraints fuse_patches constrain_with_conv layout = Ok T /\
      forall k c offset, asked v tags k -> cell_data g (fst (fst k)) c -> off_eq offset (snd (fst k)) ->
        exists r, learned_call T c offset (snd k) = Ok r /\
          carried g c offset (fun ix => asum (fn k) (fun t => W k ix t * get (gdata (garray c)) (cell_at (gshape g) (map before (fn k)) ix t))) r.
Proof.
  intros solve svd g v tags fn tower H. destruct (learned_core' H) as (D & logits & inputs & _ & _ & _ & _ & _ & HD & _ & HT). destruct H as (_ & _ & _ & _ & _ & _ & _ & _ & Hu & _ & Hsz & _).
  exists (table_weight D logits). split.
  - intros k ix Hk. destruct (@asked_axis g v tags Hu k Hk) as (j & Hj & _ & Ej). destruct (HD k j Hk Hj Ej) as (k' & sd & En & Es & Hil). unfold table_weight. rewrite En. unfold layer_weight. rewrite Es. destruct (Hsz k Hk) as (L & P & _). eapply weights_sum; [|exact Hil]. intros i Hi. apply P. lia.
  - intros pm fc fp cc layout Ho. destruct (HT pm fc fp cc layout Ho) as (T & ET & Tok). exists T. split; [exact ET|]. intros k c offset Hk (C1 & C2 & C3) Hoff. destruct (@asked_axis g v tags Hu k Hk) as (j & Hj & Lj & Ej). destruct (HD k j Hk Hj Ej) as (k' & sd & En & Es & _).
    destruct (@table_call (gshape g) D logits T c offset (snd k) k j k' sd Tok) as (r & Er & R1 & R2 & R3 & R4 & R5); [apply key_eqb_iff; cbn [fst snd]; auto | lia | exact Ej | exact En | exact C2 | exact C3|]. exists r. split; [exact Er|]. rewrite Es in R5. unfold carried. auto.
Qed.
(* @prop C71 Learned interpolation keeps constants: whatever the network and the options, a field with the same value everywhere stays so. *)
Lemma learned_interpolation_keeps_constants_lem : forall solve svd g v tags fn tower pm fuse_constraints fuse_patches constrain_with_conv layout k c offset a, learned_setting solve svd g v tags fn tower ->
  options_fit (gshape g) (fun S => exists k, asked v tags k /\ fn k = S) pm fuse_constraints fuse_patches constrain_with_conv layout -> asked v tags k -> cell_data g (fst (fst k)) c -> off_eq offset (snd (fst k)) ->
  (forall ix, inb (gshape g) ix -> get (gdata (garray c)) ix = a) ->
  exists T r, learned_interpolation solve svd g v tags fn tower pm fuse_constraints fuse_patches constrain_with_conv layout = Ok T /\ learned_call T c offset (snd k) = Ok r /\ carried g c offset (fun _ => a) r.
Proof.
  intros solve svd g v tags fn tower pm fc fp cc layout k c offset a H Ho Hk Hc Hoff Ha. destruct (learned_interpolation_averages_lem H) as (W & HW & HT). destruct (HT _ _ _ _ _ Ho) as (T & ET & Hcall). destruct (Hcall k c offset Hk Hc Hoff) as (r & Er & R1 & R2 & R3 & R4 & R5). exists T, r. split; [exact ET|]. split; [exact Er|]. unfold carried. repeat (split; [assumption|]).
  intros ix Hix. rewrite R5 by exact Hix. rewrite (@asum_ext (fn k) _ (fun t => a * W k ix t)); [rewrite asum_scal, HW by exact Hk; ring|]. intros t Ht. rewrite Ha; [ring|]. apply cell_at_in. destruct H as (_ & _ & _ & _ & _ & HN & _). exact HN.
Qed.
(** ** the bias is linear interpolation *)
Lemma zero_weights S : forall F : list Z -> R, (forall i, (i < length S)%nat -> (0 < nth i S 0)%nat) -> asum S (fun t => rprod (map (fun i => middle_weight (nth i S 0%nat) 0 (nth i t 0%Z)) (seq 0 (length S))) * F t) = F (map (fun s => Z.of_nat (before s)) S).
Proof.
  induction S as [|n S IH]; intros F HS; [cbn [asum length seq map]; unfold rprod; cbn; ring|]. cbn [asum length seq map nth].
  rewrite (@rsum_ext n _ (fun a => middle_weight n 0 a * F (a :: map (fun s => Z.of_nat (before s)) S))).
  - rewrite (@middle_apply n 0 (fun a => F (a :: map (fun s => Z.of_nat (before s)) S))) by (apply (HS 0%nat); cbn; lia). destruct (Nat.even n); ring.
  - intros a _. rewrite <- (IH (fun t => F (a :: t))) by (intros i Hi; apply (HS (Datatypes.S i)); cbn; lia). rewrite <- asum_scal. apply asum_ext. intros t _. rewrite rprod_cons, <- seq_shift, map_map. cbn [nth]. ring.
Qed.
Lemma half_weights S : forall j (F : list Z -> R), (j < length S)%nat -> (forall i, (i < length S)%nat -> (0 < nth i S 0)%nat) -> asum S (fun t => rprod (map (fun i => middle_weight (nth i S 0%nat) (half_shift j i) (nth i t 0%Z)) (seq 0 (length S))) * F t) =
  (if Nat.even (nth j S 0%nat) then (F (map (fun s => Z.of_nat (before s)) S) + F (shiftix j 1 (map (fun s => Z.of_nat (before s)) S))) / 2 else F (map (fun s => Z.of_nat (before s)) S)).
Proof.
  induction S as [|n S IH]; intros j F Hj HS; [cbn in Hj; lia|]. cbn [asum length seq map nth]. destruct j as [|j].
  - rewrite (@rsum_ext n _ (fun a => middle_weight n (/ 2) a * F (a :: map (fun s => Z.of_nat (before s)) S))).
    + rewrite (@middle_apply n (/ 2) (fun a => F (a :: map (fun s => Z.of_nat (before s)) S))) by (apply (HS 0%nat); cbn; lia). unfold shiftix. cbn [nth upd]. destruct (Nat.even n); [field | reflexivity].
    + intros a _. rewrite <- (@zero_weights S (fun t => F (a :: t))) by (intros i Hi; apply (HS (Datatypes.S i)); cbn; lia). rewrite <- asum_scal. apply asum_ext. intros t _. rewrite rprod_cons, <- seq_shift, map_map. cbn [nth]. unfold half_shift. cbn [Nat.eqb]. ring.
  - assert (HS' : forall i, (i < length S)%nat -> (0 < nth i S 0)%nat) by (intros i Hi; apply (HS (Datatypes.S i)); cbn; lia).
    rewrite (@rsum_ext n _ (fun a => middle_weight n 0 a * (if Nat.even (nth j S 0%nat) then (F (a :: map (fun s => Z.of_nat (before s)) S) + F (a :: shiftix j 1 (map (fun s => Z.of_nat (before s)) S))) / 2 else F (a :: map (fun s => Z.of_nat (before s)) S)))).
    + rewrite (@middle_apply n 0 (fun a => if Nat.even (nth j S 0%nat) then (F (a :: map (fun s => Z.of_nat (before s)) S) + F (a :: shiftix j 1 (map (fun s => Z.of_nat (before s)) S))) / 2 else F (a :: map (fun s => Z.of_nat (before s)) S))) by (apply (HS 0%nat); cbn; lia).
      unfold shiftix. cbn [nth upd]. destruct (Nat.even n), (Nat.even (nth j S 0%nat)); field.
    + intros a _. rewrite <- (IH j (fun t => F (a :: t))) by (auto; cbn in Hj; lia). rewrite <- asum_scal. apply asum_ext. intros t _. rewrite rprod_cons, <- seq_shift, map_map. cbn [nth]. unfold half_shift at 1. cbn [Nat.eqb]. rewrite <- Rmult_assoc. reflexivity.
Qed.
Lemma cell_centre N S ix : inb N ix -> length S = length N -> cell_at N (map before S) ix (map (fun s => Z.of_nat (before s)) S) = ix.
Proof.
  intros Hix L. apply (list_ext_nth 0%Z); [unfold cell_at; rewrite map_length, seq_length; symmetry; apply (inb_length _ _ Hix)|]. intros i Hi. unfold cell_at in Hi. rewrite map_length, seq_length in Hi. unfold cell_at. rewrite (@nth_map_seq _ (fun i0 => ((nth i0 ix 0 + nth i0 (map (fun s => Z.of_nat (before s)) S) 0 - Z.of_nat (nth i0 (map before S) 0%nat)) mod Z.of_nat (nth i0 N 0%nat))%Z)) by lia.
  rewrite (nth_map' _ _ 0%nat 0%Z) by lia. rewrite (nth_map' _ _ 0%nat 0%nat) by lia. pose proof (@inb_nth N ix i Hix Hi). rewrite Z.mod_small; lia.
Qed.
Lemma cell_after N S ix j : inb N ix -> length S = length N -> cell_at N (map before S) ix (shiftix j 1 (map (fun s => Z.of_nat (before s)) S)) = wrap N (shiftix j 1 ix).
Proof.
  intros Hix L. pose proof (inb_length _ _ Hix) as Lix. assert (Lw : length (wrap N (shiftix j 1 ix)) = length N) by (apply wrap_length; unfold shiftix; rewrite upd_length; exact Lix).
  apply (list_ext_nth 0%Z); [unfold cell_at; rewrite map_length, seq_length; lia|]. intros i Hi. unfold cell_at in Hi. rewrite map_length, seq_length in Hi. unfold cell_at. rewrite (@nth_map_seq _ (fun i0 => ((nth i0 ix 0 + nth i0 (shiftix j 1 (map (fun s => Z.of_nat (before s)) S)) 0 - Z.of_nat (nth i0 (map before S) 0%nat)) mod Z.of_nat (nth i0 N 0%nat))%Z)) by lia.
  rewrite wrap_nth by (unfold shiftix; rewrite ?upd_length; lia). f_equal. rewrite (nth_map' _ _ 0%nat 0%nat) by lia. unfold shiftix. destruct (Nat.eq_dec i j) as [-> | Hne].
  - rewrite !nth_upd_same by (rewrite ?map_length; lia). rewrite (nth_map' _ _ 0%nat 0%Z) by lia. lia.
  - rewrite !nth_upd_other by (intros E; apply Hne; congruence). rewrite (nth_map' _ _ 0%nat 0%Z) by lia. lia.
Qed.
(* @prop C71 An untrained learned interpolation, whose network returns zeros, is linear interpolation to the face (the mean of the two cells next to it) when the stencil has an even number of cells along the axis, and takes the cell before the face when it is odd. *)
Lemma untrained_interpolation_is_linear_lem : forall solve svd g v tags fn tower pm fuse_constraints fuse_patches constrain_with_conv layout, learned_setting solve svd g v tags fn tower ->
  options_fit (gshape g) (fun S => exists k, asked v tags k /\ fn k = S) pm fuse_constraints fuse_patches constrain_with_conv layout ->
  (forall n x y ix, tower n x = Ok y -> get y ix = 0) ->
  exists T, learned_interpolation solve svd g v tags fn tower pm fuse_constraints fuse_patches constrain_with_conv layout = Ok T /\
    forall u j t c offset, In u v -> (j < gndim g)%nat -> In t tags -> cell_data g (goff (garray u)) c -> off_eq offset (half_a_cell j (goff (garray u))) ->
      exists r, learned_call T c offset t = Ok r /\
        carried g c offset (fun ix => if Nat.even (nth j (fn (goff (garray u), half_a_cell j (goff (garray u)), t)) 0%nat) then (get (gdata (garray c)) ix + get (gdata (garray c)) (wrap (gshape g) (next j ix))) / 2 else get (gdata (garray c)) ix) r.
Proof.
  intros solve svd g v tags fn tower pm fc fp cc layout H Ho Hzero. destruct (learned_core' H) as (D & logits & inputs & _ & _ & _ & Etow & _ & HD & _ & HT). destruct H as (_ & _ & _ & _ & _ & _ & _ & _ & Hu & _ & Hsz & _).
  destruct (HT pm fc fp cc layout Ho) as (T & ET & Tok). exists T. split; [exact ET|]. intros u j t c offset Hin Hj Ht (C1 & C2 & C3) Hoff. set (k := (goff (garray u), half_a_cell j (goff (garray u)), t)). pose proof (proj2 (Hu u Hin)) as Lu.
  assert (Hk : asked v tags k) by (exists u, j, t; rewrite Lu; auto). destruct (HD k j Hk Hj eq_refl) as (k' & sd & En & Es & Hil). destruct (Hsz k Hk) as (L & P & _).
  destruct (@table_call (gshape g) D logits T c offset t k j k' sd Tok) as (r & Er & R1 & R2 & R3 & R4 & R5); [apply key_eqb_iff; cbn [fst snd k]; auto | cbn [fst k]; lia | reflexivity | exact En | exact C2 | exact C3|]. exists r. split; [exact Er|]. unfold carried. repeat (split; [assumption|]). intros ix Hix. rewrite R5 by exact Hix. rewrite Es.
  rewrite (@asum_ext (fn k) _ (fun t0 => rprod (map (fun i => middle_weight (nth i (fn k) 0%nat) (half_shift j i) (nth i t0 0%Z)) (seq 0 (length (fn k)))) * get (gdata (garray c)) (cell_at (gshape g) (map before (fn k)) ix t0))).
  - rewrite (@half_weights (fn k) j (fun t0 => get (gdata (garray c)) (cell_at (gshape g) (map before (fn k)) ix t0))) by (try lia; intros i Hi; apply P; lia). rewrite cell_centre, cell_after by (auto; exact L). reflexivity.
  - intros t0 Ht0. f_equal. unfold table_weight. rewrite En. unfold layer_weight, weight_of. rewrite Es, (il_bias Hil) by exact Ht0. rewrite (@rsum_ext (length (pc_nullspace (sd_constraint sd))) _ (fun _ => 0)); [rewrite rsum_0; ring|]. intros i Hi. rewrite (Hzero _ _ _ _ Etow). ring.
Qed.
(* @prop C71 The learned interpolation of a field to its own offset does not return the field: the result has an extra axis of length one, so it is no longer data on the grid. *)
Lemma learned_same_offset_refuted_lem : forall T c t, length (btypes (gbc c)) = gndim (ggrid (garray c)) ->
  exists r, learned_call T c (goff (garray c)) t = Ok r /\ shp (gdata (garray r)) = shp (gdata (garray c)) ++ [1%nat] /\ shp (gdata (garray r)) <> shp (gdata (garray c)).
Proof.
  intros T c t Hb. unfold learned_call, mk_gvar. cbn [ggrid garray]. rewrite Hb, Nat.eqb_refl. cbn [bind garray goff]. rewrite (proj2 (off_eqb_iff _ _) (off_eq_refl _)). eexists; split; [reflexivity|]. cbn [gdata garray expand_last shp]. split; [reflexivity|]. intros E. apply (f_equal (@length nat)) in E. rewrite app_length in E. cbn in E. lia.
Qed.
(* @prop C71 A learned interpolation refuses a target that is not half a cell along an axis from a component of the velocity, or an unknown tag. *)
Lemma learned_unknown_target_refused_lem : forall solve svd g v tags fn tower pm fuse_constraints fuse_patches constrain_with_conv layout T c offset t,
  learned_setting solve svd g v tags fn tower -> options_fit (gshape g) (fun S => exists k, asked v tags k /\ fn k = S) pm fuse_constraints fuse_patches constrain_with_conv layout ->
  learned_interpolation solve svd g v tags fn tower pm fuse_constraints fuse_patches constrain_with_conv layout = Ok T ->
  length (btypes (gbc c)) = gndim (ggrid (garray c)) -> ~ off_eq (goff (garray c)) offset ->
  (forall o p, asked v tags (o, p, t) -> off_eq (goff (garray c)) o -> ~ off_eq offset p) -> learned_call T c offset t = Err EIndex.
Proof.
  intros solve svd g v tags fn tower pm fc fp cc layout T c offset t H Ho ET Hb Hne Hun. destruct (learned_core' H) as (D & logits & inputs & _ & _ & _ & _ & _ & _ & HD & HT). destruct (HT pm fc fp cc layout Ho) as (T' & ET' & (HT1 & _)). rewrite ET in ET'. injection ET' as <-.
  unfold learned_call, mk_gvar. cbn [ggrid garray]. rewrite Hb, Nat.eqb_refl. cbn [bind garray goff gdata]. destruct (off_eqb (goff (garray c)) offset) eqn:Eo; [exfalso; apply Hne; apply off_eqb_iff; exact Eo|].
  unfold od_get. destruct (find _ T) as [kv|] eqn:Ef; [exfalso | reflexivity]. apply find_some in Ef. destruct Ef as (Hin & Ek). apply (in_map fst) in Hin. rewrite HT1 in Hin. apply in_map_iff in Hin. destruct Hin as (kd & E1 & Hin). destruct (HD kd Hin) as (((o, p), t') & Hk & Ek2). rewrite E1 in Ek2.
  pose proof (@key_trans _ _ _ (@key_sym _ _ Ek) Ek2) as K. apply key_eqb_iff in K. cbn [fst snd] in K. destruct K as (K1 & K2 & <-). exact (Hun o p Hk K1 K2).
Qed.
(* @ex *)
Lemma learned_interpolation_averages_ex_lem : exists W T r, asum [2; 2]%nat (W [3%Z; 1%Z]) = 1 /\ learned_interpolation cramer (cand_svd []) li_g li_v [None; Some 0%nat] (isotropic_sizes 2 2) (li_tower li_c) PConv true true true (Some [2; 1]%nat) = Ok T /\
  learned_call T (li_u li_c (li_o 0)) [1; 1]%Q (Some 0%nat) = Ok r /\ get (gdata (garray r)) [3%Z; 1%Z] = asum [2; 2]%nat (fun t => W [3%Z; 1%Z] t * li_c (cell_at [4; 2]%nat [0; 0]%nat [3%Z; 1%Z] t)).
Proof.
  destruct (learned_interpolation_averages_lem (li_setting li_c)) as (W & HW & HT). destruct (HT _ _ _ _ _ li_options) as (T & ET & Hc). destruct (Hc _ (li_u li_c (li_o 0)) [1; 1]%Q li_asked (li_data li_c 0)) as (r & Er & _ & _ & _ & _ & R); [repeat constructor|].
  exists (W (li_o 0, half_a_cell 1 (li_o 0), Some 0%nat)), T, r. split; [apply (HW _ [3%Z; 1%Z] li_asked)|]. split; [exact ET|]. split; [exact Er|]. apply R. cbn. lia.
Qed.
(* @ex *)
Lemma learned_interpolation_keeps_constants_ex_lem : exists T r, learned_interpolation cramer (cand_svd []) li_g li_v [None; Some 0%nat] (isotropic_sizes 2 2) (li_tower li_c) PConv true true true (Some [2; 1]%nat) = Ok T /\
  learned_call T (li_u (fun _ => 9) (li_o 0)) [1; 1]%Q (Some 0%nat) = Ok r /\ get (gdata (garray r)) [3%Z; 1%Z] = 9.
Proof.
  destruct (@learned_interpolation_keeps_constants_lem _ _ _ _ _ _ _ _ _ _ _ _ _ (li_u (fun _ => 9) (li_o 0)) [1; 1]%Q 9 (li_setting li_c) li_options li_asked (li_data _ 0)) as (T & r & ET & Er & _ & _ & _ & _ & R); [repeat constructor | reflexivity|].
  exists T, r. split; [exact ET|]. split; [exact Er|]. apply R. cbn. lia.
Qed.
(* @ex *)
Lemma untrained_interpolation_is_linear_ex_lem : exists T r, learned_interpolation cramer (cand_svd []) li_g li_v [None; Some 0%nat] (isotropic_sizes 2 2) (li_tower (fun _ => 0)) PConv true true true (Some [2; 1]%nat) = Ok T /\
  learned_call T (li_u li_c (li_o 0)) [3 # 2; 1 # 2]%Q None = Ok r /\ get (gdata (garray r)) [3%Z; 1%Z] = 11 / 2.
Proof.
  destruct (untrained_interpolation_is_linear_lem (li_setting (fun _ => 0)) li_options) as (T & ET & Hc); [intros n x y ix [= <-]; reflexivity|]. destruct (Hc (li_u li_c (li_o 0)) 0%nat None (li_u li_c (li_o 0)) [3 # 2; 1 # 2]%Q) as (r & Er & _ & _ & _ & _ & R); [left; reflexivity | cbn; lia | left; reflexivity | apply (li_data li_c 0) | repeat constructor|].
  exists T, r. split; [exact ET|]. split; [exact Er|]. rewrite R by (cbn; lia). change ((li_c [3%Z; 1%Z] + li_c [0%Z; 1%Z]) / 2 = 11 / 2). unfold li_c. cbn. lra.
Qed.
(* @ex *)
Lemma learned_unknown_target_refused_ex_lem : exists T, learned_interpolation cramer (cand_svd []) li_g li_v [None; Some 0%nat] (isotropic_sizes 2 2) (li_tower li_c) PConv true true true (Some [2; 1]%nat) = Ok T /\
  learned_call T (li_u li_c (li_o 0)) [1; 1]%Q (Some 3%nat) = Err EIndex /\ learned_call T (li_u li_c (li_o 0)) [0; 1 # 2]%Q None = Err EIndex.
Proof.
  destruct (learned_interpolation_averages_lem (li_setting li_c)) as (W & HW & HT). destruct (HT _ _ _ _ _ li_options) as (T & ET & _). exists T. split; [exact ET|]. split.
  - apply (@learned_unknown_target_refused_lem _ _ _ _ _ _ _ _ _ _ _ _ T (li_u li_c (li_o 0)) [1; 1]%Q (Some 3%nat) (li_setting li_c) li_options ET); [reflexivity | | ].
    + intros H. pose proof (off_eq_nth 1 H) as E. cbn in E. discriminate.
    + intros o p (u & j & t & _ & _ & Ht & E) _ _. injection E as _ _ <-. destruct Ht as [Ht | [Ht | []]]; discriminate.
  - apply (@learned_unknown_target_refused_lem _ _ _ _ _ _ _ _ _ _ _ _ T (li_u li_c (li_o 0)) [0; 1 # 2]%Q None (li_setting li_c) li_options ET); [reflexivity | | ].
    + intros H. pose proof (off_eq_nth 0 H) as E. cbn in E. discriminate.
    + intros o p (u & j & t & Hu & Hj & Ht & E) H1 H2. injection E as -> -> <-. destruct Hu as [<- | [<- | []]]; [|pose proof (off_eq_nth 0 H1) as X; cbn in X; discriminate]. pose proof (off_eq_nth 0 H2) as X. cbn [li_u garray goff] in X. unfold half_a_cell in X. destruct j as [|j]; cbn in X; discriminate.
Qed.
