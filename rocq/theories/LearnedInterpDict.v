(** * The dictionary of interpolators (lemmas for C71) *)
From Verif Require Import Prelude NdArr Grids_model Spec ArrayUtils_model ArrayUtilsProps PRep Networks_model Viscosities_model SkillProps Tiling_model SpecTile TilingProofs TilingProps Stencil_model SpecStencil StencilProofs StencilProps StencilLayerProps SpecLInt LearnedInterp_model LearnedInterpBase LearnedInterpLayers LearnedInterpFuse.
Set Implicit Arguments.
Local Open Scope R_scope.

(** ** keys *)
Lemma tag_eqb_iff a b : tag_eqb a b = true <-> a = b.
Proof. destruct a, b; cbn; split; intros H; try discriminate; try reflexivity; [apply Nat.eqb_eq in H; congruence | injection H as ->; apply Nat.eqb_refl]. Qed.
Lemma key_eqb_iff a b : key_eqb a b = true <-> off_eq (fst (fst a)) (fst (fst b)) /\ off_eq (snd (fst a)) (snd (fst b)) /\ snd a = snd b.
Proof. unfold key_eqb. rewrite !Bool.andb_true_iff, !off_eqb_iff, tag_eqb_iff. tauto. Qed.
Lemma key_refl a : key_eqb a a = true.
Proof. apply key_eqb_iff. split; [apply off_eq_refl|]. split; [apply off_eq_refl | reflexivity]. Qed.
Lemma key_sym a b : key_eqb a b = true -> key_eqb b a = true.
Proof. rewrite !key_eqb_iff. intros (H1 & H2 & H3). split; [apply off_eq_sym; exact H1|]. split; [apply off_eq_sym; exact H2 | congruence]. Qed.
Lemma key_trans a b c : key_eqb a b = true -> key_eqb b c = true -> key_eqb a c = true.
Proof. rewrite !key_eqb_iff. intros (H1 & H2 & H3) (I1 & I2 & I3). split; [eapply off_eq_trans; eassumption|]. split; [eapply off_eq_trans; eassumption | congruence]. Qed.
Lemma key_cong a b c : key_eqb b c = true -> key_eqb a b = key_eqb a c.
Proof.
  intros H. destruct (key_eqb a b) eqn:E1, (key_eqb a c) eqn:E2; auto; [rewrite (@key_trans a b c E1 H) in E2; discriminate|].
  rewrite (@key_trans a c b E2 (@key_sym _ _ H)) in E1. discriminate.
Qed.
(** ** place of a key *)
Fixpoint findpos (ks : list ikey) (k : ikey) : nat := match ks with [] => 0%nat | k' :: r => if key_eqb k' k then 0%nat else Datatypes.S (findpos r k) end.
Lemma findpos_cong ks k k' : key_eqb k k' = true -> findpos ks k = findpos ks k'.
Proof. intros H. induction ks as [|a r IH]; [reflexivity|]. cbn [findpos]. rewrite (@key_cong a k k' H), IH. reflexivity. Qed.
Lemma od_get_pos {V} (d : list (ikey * V)) k : od_get d k = option_map snd (nth_error d (findpos (map fst d) k)).
Proof. unfold od_get. induction d as [|(a, b) r IH]; [reflexivity|]. cbn [find map findpos fst]. destruct (key_eqb a k); [reflexivity|]. cbn [nth_error]. exact IH. Qed.
Lemma findpos_found {V} (d : list (ikey * V)) k kd : In kd d -> key_eqb (fst kd) k = true -> exists k' x, nth_error d (findpos (map fst d) k) = Some (k', x) /\ key_eqb k' k = true.
Proof.
  induction d as [|(a, b) r IH]; intros Hin E; [destruct Hin|]. cbn [map findpos fst]. destruct (key_eqb a k) eqn:Ea; [exists a, b; auto|]. destruct Hin as [<- | Hin]; [cbn in E; congruence|]. cbn [nth_error]. apply IH; assumption.
Qed.
Lemma od_set_in {V} (d : list (ikey * V)) k x kd : In kd (od_set d k x) -> In kd d \/ (key_eqb (fst kd) k = true /\ snd kd = x).
Proof.
  induction d as [|(a, b) r IH]; cbn [od_set]; intros Hin.
  - destruct Hin as [<- | []]. right. split; [apply key_refl | reflexivity].
  - destruct (key_eqb a k) eqn:E; destruct Hin as [<- | Hin]; [right; auto | left; right; exact Hin | left; left; reflexivity|]. destruct (IH Hin) as [H | H]; [left; right; exact H | right; exact H].
Qed.
Lemma od_set_has {V} (d : list (ikey * V)) k x : exists kd, In kd (od_set d k x) /\ key_eqb (fst kd) k = true.
Proof.
  induction d as [|(a, b) r (kd & H1 & H2)]; cbn [od_set]; [exists (k, x); split; [left; reflexivity | apply key_refl]|]. destruct (key_eqb a k) eqn:E; [exists (a, x); split; [left; reflexivity | exact E] | exists kd; split; [right; exact H1 | exact H2]].
Qed.
Lemma od_set_keeps {V} (d : list (ikey * V)) k x kd : In kd d -> exists kd', In kd' (od_set d k x) /\ fst kd' = fst kd.
Proof.
  induction d as [|(a, b) r IH]; intros Hin; [destruct Hin|]. cbn [od_set]. destruct Hin as [<- | Hin].
  - destruct (key_eqb a k); [exists (a, x) | exists (a, b)]; (split; [left; reflexivity | reflexivity]).
  - destruct (key_eqb a k); [exists kd; split; [right; exact Hin | reflexivity]|]. destruct (IH Hin) as (kd' & H1 & H2). exists kd'. split; [right; exact H1 | exact H2].
Qed.
Lemma od_set_map {V W} (f : V -> W) (d : list (ikey * V)) k x : od_set (map (fun kd => (fst kd, f (snd kd))) d) k (f x) = map (fun kd => (fst kd, f (snd kd))) (od_set d k x).
Proof. induction d as [|(a, b) r IH]; [reflexivity|]. cbn [od_set map fst snd]. destruct (key_eqb a k); [reflexivity|]. cbn [map fst snd]. rewrite IH. reflexivity. Qed.
(** ** layers *)
Definition relabel (pm : patch_method) (layout : option (list nat)) (sd : spatial_derivative) : spatial_derivative := mkSD (sd_shape sd) (sd_roll sd) (sd_constraint sd) pm layout.
Section Layers.
Variable solve : list (list R) -> list R -> result (list R).
Variable svd_v : list (list R) -> list (list R).
Lemma layers_relabel g fn pm layout keys : forall d D, 
  foldM (fun d key => let* sd := make_spatial_derivative solve svd_v (fn key) (fst (fst key)) (snd (fst key)) (repeat 0%nat (gndim g)) (gstep g) PRoll None FiniteVolume in Ok (od_set d key sd)) d keys = Ok D ->
  foldM (fun d key => let* sd := make_spatial_derivative solve svd_v (fn key) (fst (fst key)) (snd (fst key)) (repeat 0%nat (gndim g)) (gstep g) pm layout FiniteVolume in Ok (od_set d key sd))
    (map (fun kd => (fst kd, relabel pm layout (snd kd))) d) keys = Ok (map (fun kd => (fst kd, relabel pm layout (snd kd))) D).
Proof.
  induction keys as [|k keys IH]; intros d D H; cbn [foldM] in H |- *; [injection H as ->; reflexivity|].
  unfold make_spatial_derivative at 1 in H. unfold make_spatial_derivative at 1. destruct (get_roll_and_shift (fst (fst k)) (snd (fst k))) as (roll, shift). destruct (make_constraint _ _ _ _ _ _ _ _ _) as [pc|]; cbn [bind] in H |- *; [|discriminate].
  specialize (IH _ _ H). rewrite <- od_set_map in IH. exact IH.
Qed.
Lemma layers_ok g fn keys : (forall k, In k keys -> exists sd, make_spatial_derivative solve svd_v (fn k) (fst (fst k)) (snd (fst k)) (repeat 0%nat (gndim g)) (gstep g) PRoll None FiniteVolume = Ok sd) ->
  exists D, interpolation_layers solve svd_v g keys fn PRoll None = Ok D /\
    (forall kd, In kd D -> exists k, In k keys /\ key_eqb (fst kd) k = true /\ make_spatial_derivative solve svd_v (fn k) (fst (fst k)) (snd (fst k)) (repeat 0%nat (gndim g)) (gstep g) PRoll None FiniteVolume = Ok (snd kd)) /\
    (forall k, In k keys -> exists kd, In kd D /\ key_eqb (fst kd) k = true).
Proof.
  intros H. unfold interpolation_layers.
  assert (G : forall l done d, (forall k, In k l -> In k keys) ->
    (forall kd, In kd d -> exists k, In k keys /\ key_eqb (fst kd) k = true /\ make_spatial_derivative solve svd_v (fn k) (fst (fst k)) (snd (fst k)) (repeat 0%nat (gndim g)) (gstep g) PRoll None FiniteVolume = Ok (snd kd)) ->
    (forall k, In k done -> exists kd, In kd d /\ key_eqb (fst kd) k = true) ->
    exists D, foldM (fun d key => let* sd := make_spatial_derivative solve svd_v (fn key) (fst (fst key)) (snd (fst key)) (repeat 0%nat (gndim g)) (gstep g) PRoll None FiniteVolume in Ok (od_set d key sd)) d l = Ok D /\
    (forall kd, In kd D -> exists k, In k keys /\ key_eqb (fst kd) k = true /\ make_spatial_derivative solve svd_v (fn k) (fst (fst k)) (snd (fst k)) (repeat 0%nat (gndim g)) (gstep g) PRoll None FiniteVolume = Ok (snd kd)) /\
    (forall k, In k (l ++ done) -> exists kd, In kd D /\ key_eqb (fst kd) k = true)).
  { induction l as [|k l IH]; intros done d Hl Hd Hdone; cbn [foldM]; [exists d; auto|]. destruct (H k (Hl k (or_introl eq_refl))) as (sd & Esd). rewrite Esd. cbn [bind].
    destruct (IH (k :: done) (od_set d k sd)) as (D & ED & D1 & D2).
    - intros k' Hk'. apply Hl. right. exact Hk'.
    - intros kd Hin. destruct (od_set_in _ _ _ _ Hin) as [Hin' | (E1 & E2)]; [apply Hd; exact Hin'|]. exists k. split; [apply Hl; left; reflexivity|]. split; [exact E1 | rewrite E2; exact Esd].
    - intros k' [<- | Hk']; [apply od_set_has|]. destruct (Hdone k' Hk') as (kd & K1 & K2). destruct (@od_set_keeps _ d k sd kd K1) as (kd' & K3 & K4). exists kd'. split; [exact K3 | rewrite K4; exact K2].
    - exists D. split; [exact ED|]. split; [exact D1|]. intros k' Hk'. apply D2. cbn [app] in Hk'. apply in_or_app. destruct Hk' as [<- | Hk']; [right; left; reflexivity|]. apply in_app_or in Hk'. destruct Hk' as [Hk' | Hk']; [left; exact Hk' | right; right; exact Hk']. }
  destruct (G keys [] []) as (D & ED & D1 & D2); [auto | intros kd [] | intros k [] |]. exists D. split; [exact ED|]. split; [exact D1|]. intros k Hk. apply D2. rewrite app_nil_r. exact Hk.
Qed.
End Layers.
(** ** the keys of a learned interpolation *)
Lemma combine_map_upd (o : list Q) : forall a j, map (fun io => if (fst io =? a + j)%nat then (snd io + (1 # 2))%Q else snd io) (combine (seq a (length o)) o) = upd j (nth j o 0 + (1 # 2))%Q o.
Proof.
  induction o as [|x o IH]; intros a j; [destruct j; reflexivity|]. cbn [length seq combine map fst snd]. destruct j as [|j].
  - rewrite Nat.add_0_r, Nat.eqb_refl. cbn [upd nth]. f_equal.
    assert (G : forall b, (a < b)%nat -> map (fun io : nat * Q => if (fst io =? a)%nat then (snd io + (1 # 2))%Q else snd io) (combine (seq b (length o)) o) = o).
    { clear. induction o as [|y o IH]; intros b Hb; [reflexivity|]. cbn [length seq combine map fst snd]. replace (b =? a)%nat with false by (symmetry; apply Nat.eqb_neq; lia). rewrite IH by lia. reflexivity. }
    apply G. lia.
  - replace (a =? a + Datatypes.S j)%nat with false by (symmetry; apply Nat.eqb_neq; lia). cbn [upd nth]. f_equal. rewrite <- (IH (Datatypes.S a) j). apply map_ext. intros io. replace (Datatypes.S a + j)%nat with (a + Datatypes.S j)%nat by lia. reflexivity.
Qed.
Lemma cv_half o : cv_offsets o = map (fun j => half_a_cell j o) (seq 0 (length o)).
Proof. unfold cv_offsets. apply map_ext. intros j. apply (combine_map_upd o 0 j). Qed.
Lemma keys_asked v tags k : In k (interpolation_keys v tags) <-> asked v tags k.
Proof.
  unfold interpolation_keys, asked. rewrite in_flat_map. split.
  - intros (u & Hu & H). apply in_flat_map in H. destruct H as (tg & Htg & H). rewrite cv_half in Htg. apply in_map_iff in Htg. destruct Htg as (j & <- & Hj). apply in_seq in Hj. apply in_map_iff in H. destruct H as (t & <- & Ht). exists u, j, t. repeat split; auto. lia.
  - intros (u & j & t & Hu & Hj & Ht & ->). exists u. split; [exact Hu|]. apply in_flat_map. exists (half_a_cell j (goff (garray u))). split; [rewrite cv_half; apply in_map_iff; exists j; split; [reflexivity | apply in_seq; lia]|]. apply in_map_iff. exists t. auto.
Qed.
