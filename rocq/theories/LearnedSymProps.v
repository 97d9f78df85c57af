(** * Learned solvers do not care where on the periodic domain things are (C76) *)
From Verif Require Import Prelude NdArr Grids_model Spec SpecDiff SpecNS SpecML LinAlg Cplx FastDiag_model Laplacian_model PressureSolve_model Boundaries_model BoundariesPeriodic FD_model Interp_model Pressure_model Advection_model ArrayUtils_model TimeStep_model Diffusion_model Equations_model PRep FDProofs FDProps InterpProps ArrayUtilsProps PressureProps PressureSolveProps AdvectionProofs AdvectionProps EquationsProps EquationsMoreProps Networks_model NetworksProps LearnedProps.
From Verif Require StencilLayerProps.
From Verif Require Import SpecRollout SymEx Towers_model TowerProps TowerMoreProps.
From Verif Require Import Tiling_model SpecTile Stencil_model SpecStencil Viscosities_model LearnedInterp_model SpecLInt LearnedInterpLayers LearnedInterpFuse LearnedInterpDict StencilLayerProps TilingProofs LearnedInterpEx LearnedInterpProps LearnedSolver_model SpecLSolve SpecTower SpecSym SymBase SymProps SymVelProps SymStepProps LearnedSolverProps.
Set Implicit Arguments.
Local Open Scope Z_scope.

(** ** the layers depend on the values of the offsets only *)
Definition keys_match (a b : ikey) : Prop := key_eqb a b = true.
Definition entries_match (a b : ikey * spatial_derivative) : Prop := key_eqb (fst a) (fst b) = true /\ snd a = snd b.
Lemma get_roll_cong o o' p p' : off_eq o o' -> off_eq p p' -> fst (get_roll_and_shift o p) = fst (get_roll_and_shift o' p') /\ off_eq (snd (get_roll_and_shift o p)) (snd (get_roll_and_shift o' p')).
Proof.
  intros Ho. revert p p'. unfold get_roll_and_shift, off_eq in *. cbn [fst snd].
  induction Ho as [|a b o o' Eab Ho IH]; intros p p' Hp; destruct Hp as [|c d p p' Ecd Hp]; cbn [map combine fst snd]; auto.
  destruct (IH _ _ Hp) as (E1 & E2). cbn [map combine fst snd] in E1, E2.
  assert (Ef : Qround.Qfloor (c - a)%Q = Qround.Qfloor (d - b)%Q) by (apply Qround.Qfloor_comp; rewrite Eab, Ecd; reflexivity).
  rewrite E1, Ef. split; [reflexivity|]. constructor; [rewrite Eab, Ecd; reflexivity | rewrite <- E1 in E2 |- *; exact E2].
Qed.
Lemma stencils_cong S : forall o o' h, off_eq o o' -> get_stencils S o h = get_stencils S o' h.
Proof.
  unfold get_stencils, off_eq. induction S as [|s S IH]; intros o o' h H; [reflexivity|]. destruct H as [|a b o o' E H]; [reflexivity|]. destruct h as [|x h]; [reflexivity|]. cbn. rewrite (Qreals.Qeq_eqR _ _ E). f_equal. apply IH. exact H.
Qed.
Lemma make_sd_cong solve svd S o o' p p' d h pm layout m : off_eq o o' -> off_eq p p' -> make_spatial_derivative solve svd S o p d h pm layout m = make_spatial_derivative solve svd S o' p' d h pm layout m.
Proof.
  intros Ho Hp. destruct (get_roll_cong Ho Hp) as (E1 & E2). unfold make_spatial_derivative. destruct (get_roll_and_shift o p) as (r, s), (get_roll_and_shift o' p') as (r', s'). cbn [fst snd] in E1, E2. subst r'. rewrite (stencils_cong S h E2). reflexivity.
Qed.
Lemma od_set_match d d' k k' sd : Forall2 entries_match d d' -> key_eqb k k' = true -> Forall2 entries_match (od_set d k sd) (od_set d' k' sd).
Proof.
  intros H Hk. induction H as [|(a, x) (b, y) d d' (E1 & E2) H IH]; cbn [od_set].
  - constructor; [split; [exact Hk | reflexivity] | constructor].
  - cbn [fst snd] in E1, E2. subst y. assert (Eab : key_eqb a k = key_eqb b k').
    { rewrite (@key_cong a k k' Hk). destruct (key_eqb b k') eqn:E; [exact (key_trans _ _ _ E1 E)|]. apply Bool.not_true_iff_false. intros E3. rewrite (@key_trans b a k' (key_sym _ _ E1) E3) in E. discriminate E. }
    rewrite <- Eab. destruct (key_eqb a k); constructor; auto; split; auto.
Qed.
Lemma layers_match solve svd g (fn : ikey -> list nat) : by_value fn -> forall keys keys' d d' D, Forall2 keys_match keys keys' -> Forall2 entries_match d d' ->
  foldM (fun d key => let* sd := make_spatial_derivative solve svd (fn key) (fst (fst key)) (snd (fst key)) (repeat 0%nat (gndim g)) (gstep g) PRoll None FiniteVolume in Ok (od_set d key sd)) d keys = Ok D ->
  exists D', foldM (fun d key => let* sd := make_spatial_derivative solve svd (fn key) (fst (fst key)) (snd (fst key)) (repeat 0%nat (gndim g)) (gstep g) PRoll None FiniteVolume in Ok (od_set d key sd)) d' keys' = Ok D' /\ Forall2 entries_match D D'.
Proof.
  intros Hfn keys keys' d d' D Hk. revert d d' D. induction Hk as [|k k' keys keys' E Hk IH]; intros d d' D Hd H; cbn [foldM] in H |- *.
  - injection H as ->. exists d'. auto.
  - pose proof (proj1 (key_eqb_iff _ _) E) as (K1 & K2 & K3). rewrite <- (@make_sd_cong solve svd (fn k') _ _ _ _ (repeat 0%nat (gndim g)) (gstep g) PRoll None FiniteVolume K1 K2).
    assert (Ef : fn k' = fn k) by (symmetry; destruct k as ((o, p), t), k' as ((o', p'), t'); cbn [fst snd] in *; subst t'; apply Hfn; assumption). rewrite Ef.
    destruct (make_spatial_derivative solve svd (fn k) _ _ _ _ _ _ _) as [sd|]; cbn [bind] in H |- *; [|discriminate H]. apply (IH _ _ _ (@od_set_match d d' k k' sd Hd E) H).
Qed.
Lemma findpos_match D D' k k' : Forall2 entries_match D D' -> key_eqb k k' = true -> findpos (map fst D) k = findpos (map fst D') k'.
Proof.
  intros H Hk. induction H as [|(a, x) (b, y) d d' (E1 & E2) H IH]; [reflexivity|]. cbn [map findpos fst snd] in *.
  assert (Eab : key_eqb a k = key_eqb b k').
  { rewrite (@key_cong a k k' Hk). destruct (key_eqb b k') eqn:E; [exact (key_trans _ _ _ E1 E)|]. apply Bool.not_true_iff_false. intros E3. rewrite (@key_trans b a k' (key_sym _ _ E1) E3) in E. discriminate E. }
  rewrite Eab, IH. reflexivity.
Qed.
Lemma match_snd D D' : Forall2 entries_match D D' -> map snd D = map snd D'.
Proof. induction 1 as [|a b d d' (_ & E) _ IH]; [reflexivity|]. cbn [map]. rewrite E, IH. reflexivity. Qed.
Lemma match_nth D D' n : Forall2 entries_match D D' -> option_map snd (nth_error D n) = option_map snd (nth_error D' n).
Proof. intros H. revert n. induction H as [|a b d d' (_ & E) _ IH]; intros [|n]; cbn; auto. rewrite E. reflexivity. Qed.
Lemma sum_of_nth f sds : forall p sd j, nth_error sds p = Some sd -> (j < f sd)%nat -> (sum_of f (firstn p sds) + j < sum_of f sds)%nat.
Proof. unfold sum_of. induction sds as [|a sds IH]; intros [|p] sd j H Hj; cbn in *; try discriminate H; [injection H as ->; lia|]. specialize (IH p sd j H Hj). lia. Qed.
(** weights move along with the logits *)
Lemma weights_move N k0 D D' logits logits' k k' ix t : Forall2 entries_match D D' -> key_eqb k k' = true -> moved k0 N (sum_of null_size (map snd D)) logits logits' -> inb N ix ->
  table_weight D' logits' k' ix t = table_weight D logits k (cell_at N [] ix k0) t.
Proof.
  intros HD Hk (_ & _ & HM) Hix. unfold table_weight. rewrite <- (@findpos_match D D' k k' HD Hk). set (q := findpos (map fst D) k). clearbody q.
  pose proof (@match_nth D D' q HD) as En. rewrite <- (@match_snd D D' HD). destruct (nth_error D q) as [(a, sd)|] eqn:E1, (nth_error D' q) as [(b, sd')|] eqn:E2; cbn in En; try discriminate En; [|reflexivity]. injection En as <-.
  unfold layer_weight, weight_of. f_equal. apply rsum_ext. intros j Hj. f_equal. apply HM. apply inb_app_intro; [exact Hix|].
  assert (Hn : nth_error (map snd D) q = Some sd) by (rewrite nth_error_map, E1; reflexivity).
  pose proof (@sum_of_nth null_size (map snd D) q sd (Z.to_nat j) Hn) as H. unfold null_size at 1 in H. repeat constructor; [lia|]. specialize (H ltac:(lia)). lia.
Qed.
(** the state of a learned interpolation in full *)
Lemma learned_state solve svd g v tags fn tower : learned_setting solve svd g v tags fn tower -> exists D logits inputs,
  interpolation_layers solve svd g (interpolation_keys v tags) fn PRoll None = Ok D /\ stack_last (map (fun u => gdata (garray u)) v) = Ok inputs /\ channels_last inputs (gshape g) (length v) /\
  tower (sum_of null_size (map snd D)) inputs = Ok logits /\ channels_last logits (gshape g) (sum_of null_size (map snd D)) /\
  forall pm fc fp cc layout, options_fit (gshape g) (fun S => exists k, asked v tags k /\ fn k = S) pm fc fp cc layout ->
    exists T, learned_interpolation solve svd g v tags fn tower pm fc fp cc layout = Ok T /\
      forall k c offset, asked v tags k -> cell_data g (fst (fst k)) c -> off_eq offset (snd (fst k)) ->
        exists r, learned_call T c offset (snd k) = Ok r /\
          carried g c offset (fun ix => asum (fn k) (fun t => table_weight D logits k ix t * get (gdata (garray c)) (cell_at (gshape g) (map before (fn k)) ix t)))%R r.
Proof.
  intros H. destruct (learned_core' H) as (D & logits & inputs & H1 & H2 & H3 & H4 & H5 & HD & _ & HT). destruct H as (_ & _ & _ & _ & _ & _ & _ & _ & Hu & _ & Hsz & _).
  exists D, logits, inputs. do 5 (split; [assumption|]).
  intros pm fc fp cc layout Ho. destruct (HT pm fc fp cc layout Ho) as (T & ET & Tok). exists T. split; [exact ET|]. intros k c offset Hk (C1 & C2 & C3) Hoff. destruct (@asked_axis g v tags Hu k Hk) as (j & Hj & Lj & Ej). destruct (HD k j Hk Hj Ej) as (k' & sd & En & Es & _).
  destruct (@table_call (gshape g) D logits T c offset (snd k) k j k' sd Tok) as (r & Er & R1 & R2 & R3 & R4 & R5); [apply key_eqb_iff; cbn [fst snd]; auto | lia | exact Ej | exact En | exact C2 | exact C3|]. exists r. split; [exact Er|]. rewrite Es in R5. unfold carried. auto.
Qed.
Lemma F2_flat {A B A' B'} (P : A -> A' -> Prop) (Q : B -> B' -> Prop) f f' l l' : Forall2 P l l' -> (forall a a', P a a' -> Forall2 Q (f a) (f' a')) -> Forall2 Q (flat_map f l) (flat_map f' l').
Proof. intros H Hf. induction H; cbn; [constructor|]. apply Forall2_app; auto. Qed.
Lemma keys_of_copies v v' tags : Forall2 (fun u u' => off_eq (goff (garray u)) (goff (garray u'))) v v' -> Forall2 keys_match (interpolation_keys v tags) (interpolation_keys v' tags).
Proof.
  intros H. unfold interpolation_keys. eapply F2_flat; [exact H|]. intros u u' E. cbn beta.
  apply (@F2_flat _ _ _ _ (fun a b => off_eq a b)).
  - rewrite !cv_half. rewrite <- (F2_length E). generalize (seq 0 (length (goff (garray u)))) as l. induction l as [|j l IH]; cbn [map]; constructor; auto. apply half_cong. exact E.
  - intros a a' Ea. induction tags as [|t l IH]; cbn [map]; constructor; auto. apply key_eqb_iff. cbn [fst snd]. auto.
Qed.
Lemma stack_get (v : list gvar) x ix o : stack_last (map (fun u => gdata (garray u)) v) = Ok x -> (0 <= o < Z.of_nat (length v)) -> get x (ix ++ [o]) = get (gdata (garray (nth (Z.to_nat o) v dgv))) ix.
Proof.
  intros E Ho. destruct v as [|u v]; [discriminate E|]. unfold stack_last in E. cbn [map] in E. destruct (forallb _ _) in E; [|discriminate E]. injection E as <-. cbn [get]. rewrite last_last, removelast_last.
  transitivity (get (nth (Z.to_nat o) (map (fun u0 : gvar => gdata (garray u0)) (u :: v)) (gdata (garray u))) ix); [reflexivity|].
  rewrite (@nth_map' _ _ (fun u0 => gdata (garray u0)) (u :: v) (Z.to_nat o) dgv _) by (cbn [length] in *; lia). reflexivity.
Qed.
(** ** moving a state *)
Definition away (n : nat) (L : nat -> Z) : list Z := map (fun i => - L i) (seq 0 n).
Lemma translation_relabels n L : relabelling n (translation L).
Proof. intros a Ha. cbn. auto. Qed.
Lemma translation_grid g L : copied_grid (translation L) 1 g g.
Proof. split; [reflexivity|]. split; [apply translation_relabels|]. intros a Ha. cbn. split; [reflexivity | ring]. Qed.
Lemma translation_offset n L o : length o = n -> copied_offset n (translation L) o o.
Proof. intros H. split; [exact H|]. split; [exact H|]. intros a Ha. reflexivity. Qed.
Lemma under_cell (N : list nat) L ix : length ix = length N -> wrap N (under (length N) (translation L) ix) = cell_at N [] ix (away (length N) L).
Proof.
  intros HL. unfold cell_at. apply (list_ext_nth 0); [rewrite wrap_length by (rewrite under_length; reflexivity); rewrite map_length, seq_length; reflexivity|].
  intros i Hi. rewrite wrap_length in Hi by (rewrite under_length; reflexivity).
  rewrite wrap_nth by (rewrite ?under_length; lia). rewrite nth_map_seq by exact Hi. rewrite under_nth by exact Hi. unfold away. rewrite nth_map_seq by exact Hi. cbn [translation of_axis moved_by]. f_equal. destruct i; cbn [nth]; lia.
Qed.
Lemma under_window (N : list nat) L B ix t : length ix = length N ->
  wrap N (under (length N) (translation L) (cell_at N B ix t)) = cell_at N B (wrap N (under (length N) (translation L) ix)) t.
Proof.
  intros HL. unfold cell_at. apply (list_ext_nth 0); [rewrite wrap_length by (rewrite under_length; reflexivity); rewrite map_length, seq_length; reflexivity|].
  intros i Hi. rewrite wrap_length in Hi by (rewrite under_length; reflexivity).
  rewrite wrap_nth by (rewrite ?under_length; lia). rewrite nth_map_seq by exact Hi. rewrite under_nth by exact Hi. rewrite wrap_nth by (rewrite ?under_length; lia). rewrite under_nth by exact Hi. cbn [translation of_axis moved_by]. rewrite nth_map_seq by exact Hi.
  rewrite Zminus_mod_idemp_l. set (m := Z.of_nat (nth i N 0%nat)). set (b := Z.of_nat (nth i B 0%nat)). replace ((nth i ix 0 - L i) mod m + nth i t 0 - b) with ((nth i ix 0 - L i) mod m + (nth i t 0 - b)) by lia. rewrite Zplus_mod_idemp_l. f_equal. lia.
Qed.
Lemma stack_moved g o bs v v' L x x' : periodic_velocity g o bs v -> periodic_velocity g o bs v' -> copied_velocity (gndim g) (translation L) 1 v v' ->
  stack_last (map (fun u => gdata (garray u)) v) = Ok x -> stack_last (map (fun u => gdata (garray u)) v') = Ok x' ->
  channels_last x (gshape g) (gndim g) -> channels_last x' (gshape g) (gndim g) -> moved (away (gndim g) L) (gshape g) (gndim g) x x'.
Proof.
  intros Hv Hv' HC Ex Ex' C C'. split; [exact C|]. split; [exact C'|]. intros ix c Hin. pose proof (pv_len Hv) as Lv. pose proof (pv_len Hv') as Lv'.
  assert (HL : length ix = gndim g) by (apply inb_length in Hin; rewrite !app_length in Hin; cbn in Hin; unfold gndim; lia).
  destruct (TilingProofs.inb_app (gshape g) [gndim g] _ Hin) as (i1 & i2 & Eq & Hix & Hc). pose proof (inb_length _ _ Hc) as L2. destruct i2 as [|c' [|c'' i2]]; cbn in L2; try lia. apply app_inj_tail in Eq. destruct Eq as (<- & <-). assert (Hc' : 0 <= c < Z.of_nat (gndim g)) by (cbn in Hc; tauto).
  rewrite (@stack_get v' x' ix c Ex') by lia. rewrite (@stack_get v x _ c Ex) by lia. set (i := Z.to_nat c) in *.
  assert (Hi : (i < gndim g)%nat) by lia. specialize (HC i Hi ix HL). cbn [translation to_axis] in HC. unfold vval in HC. rewrite (nth_error_nth' v dgv (n := i)) in HC by lia. rewrite (nth_error_nth' v' dgv (n := i)) in HC by lia.
  unfold pval in HC. destruct Hv as (Pv & _). destruct Hv' as (Pv' & _). destruct (periodic_vec_nth Pv Hi) as (((_ & Hs & _) & _) & Hg). destruct (periodic_vec_nth Pv' Hi) as (((_ & Hs' & _) & _) & Hg'). rewrite Hg in Hs. rewrite Hg' in Hs'.
  rewrite Hs, Hs', (wrap_inb _ _ Hix) in HC. rewrite HC. unfold gndim at 1. rewrite under_cell by exact HL. unfold gndim. ring.
Qed.
Lemma rel_average (N S : list nat) L W W' F F' : (forall ix t, inb N ix -> W' ix t = W (cell_at N [] ix (away (length N) L)) t) -> allpos N -> periodic N F -> copied_values (length N) (translation L) 1 F F' ->
  copied_values (length N) (translation L) 1 (stencil_average N S W F) (stencil_average N S W' F').
Proof.
  intros HW HN HF HR ix HL. unfold stencil_average. rewrite Rmult_1_l. assert (Hin : inb N (wrap N ix)) by (apply inb_wrap; auto). assert (HLw : length (wrap N ix) = length N) by (apply inb_length; exact Hin).
  assert (Eu : wrap N (under (length N) (translation L) (wrap N ix)) = wrap N (under (length N) (translation L) ix)) by (apply (@under_wrap (length N) (translation L) (@translation_relabels _ L) N N); auto).
  apply asum_ext. intros t _. rewrite HW by exact Hin. rewrite <- under_cell by exact HLw. rewrite Eu. f_equal.
  assert (HLc : length (cell_at N (map before S) (wrap N ix) t) = length N) by (unfold cell_at; rewrite map_length, seq_length; reflexivity).
  rewrite (HR _ HLc), Rmult_1_l. rewrite <- (HF (under (length N) (translation L) _)) by apply under_length. rewrite under_window by exact HLw. rewrite Eu. reflexivity.
Qed.
(* @prop C76 Learned convection does not care where things are: if the network moves along with its input (as convolutional towers on periodic grids do), the learned interpolations built from a state and from the same state translated by any number of cells along every axis convect translated velocities into translated terms, for every choice of stencils and implementation options. *)
Lemma learned_convection_translates_lem : forall solve svd g o bs v v' tags fn tower pm fuse_constraints fuse_patches constrain_with_conv layout dt L,
  learned_setting solve svd g v tags fn tower -> (forall n, moves_along (gshape g) (gndim g) 1 (gshape g) n (tower n) (tower n)) ->
  options_fit (gshape g) (fun S => exists k, asked v tags k /\ fn k = S) pm fuse_constraints fuse_patches constrain_with_conv layout ->
  In tag_c tags -> In tag_u tags ->
  periodic_velocity g o bs v -> periodic_velocity g o bs v' -> copied_velocity (gndim g) (translation L) 1 v v' ->
  treat_alike g g o o bs bs (translation L) 1 1
    (learned_convection solve svd g dt tags fn tower pm fuse_constraints fuse_patches constrain_with_conv layout v)
    (learned_convection solve svd g dt tags fn tower pm fuse_constraints fuse_patches constrain_with_conv layout v').
Proof.
  intros solve svd g o bs v v' tags fn tower pm fc fp cc layout dt L Hset Hmov Ho Tc Tu Hv Hv' HC.
  pose proof (setting_transfer Hv Hv' Hset) as Hset'. assert (Hfn : by_value fn) by apply Hset. pose proof (options_transfer Hfn Hv Hv' Ho) as Ho'.
  pose proof (pv_len Hv) as Lv. pose proof (pv_len Hv') as Lv'. assert (Hd : (0 < gndim g)%nat) by apply Hset. pose proof (pv_wfg Hd Hv) as Hwf.
  destruct (learned_state Hset) as (D & logits & inputs & ED & Est & Cin & Etow & Clog & HT). destruct (learned_state Hset') as (D' & logits' & inputs' & ED' & Est' & Cin' & Etow' & Clog' & HT').
  destruct (HT _ _ _ _ _ Ho) as (T & ET & HW). destruct (HT' _ _ _ _ _ Ho') as (T' & ET' & HW'). clear HT HT'.
  assert (HD : Forall2 entries_match D D').
  { destruct (@layers_match solve svd g fn Hfn _ _ [] [] D (keys_of_copies tags (pv_offs_match Hv Hv')) (Forall2_nil _) ED) as (D2 & E2 & M). unfold interpolation_layers in ED'. rewrite ED' in E2. injection E2 as <-. exact M. }
  rewrite <- (match_snd HD) in Etow', Clog'. rewrite Lv in Cin. rewrite Lv' in Cin'.
  assert (HM : moved (away (gndim g) L) (gshape g) (sum_of null_size (map snd D)) logits logits').
  { pose proof (stack_moved Hv Hv' HC Est Est' Cin Cin') as M0. destruct (Hmov (sum_of null_size (map snd D)) (away (gndim g) L) inputs inputs') as (y & y' & Ey & Ey' & My).
    - unfold away. rewrite map_length, seq_length. reflexivity.
    - replace (map (Z.mul (Z.of_nat 1)) (away (gndim g) L)) with (away (gndim g) L); [exact M0|]. symmetry. rewrite <- (map_id (away (gndim g) L)) at 2. apply map_ext. intros a. lia.
    - rewrite Etow in Ey. rewrite Etow' in Ey'. injection Ey as <-. injection Ey' as <-. exact My. }
  intros w w' Hw Hw' HCw. unfold learned_convection. rewrite ET, ET'. cbn [bind].
  destruct (@ls_conv solve svd g o bs v tags fn tower Hset Hv Tc Tu (table_weight D logits) T HW dt w Hw) as (l & E & Hl & HF).
  destruct (@ls_conv solve svd g o bs v' tags fn tower Hset' Hv' Tc Tu (table_weight D' logits') T' HW' dt w' Hw') as (l' & E' & Hl' & HF').
  eexists l, l', _, _. split; [exact E|]. split; [exact E'|]. split; [split; [exact Hl | exact HF]|]. split; [split; [exact Hl' | exact HF']|].
  pose proof (pv_len Hw) as Lw. pose proof (pv_len Hw') as Lw'.
  intros j x x' Hj Hx Hx'. cbn [translation to_axis] in Hx.
  assert (Eu : nth_error w j = Some (nth j w dgv)) by (apply nth_error_nth'; lia). assert (Eu' : nth_error w' j = Some (nth j w' dgv)) by (apply nth_error_nth'; lia).
  pose proof (HF j _ x Eu Hx) as P. pose proof (HF' j _ x' Eu' Hx') as P'. clear HF HF'.
  assert (HR : forall a b t, (a < gndim g)%nat -> (b < gndim g)%nat -> copied_values (gndim g) (translation L) 1
     (wrapF g (fun kx => stencil_average (gshape g) (fn (goff (garray (nth a v dgv)), half_a_cell b (goff (garray (nth a v dgv))), t)) (table_weight D logits (goff (garray (nth a v dgv)), half_a_cell b (goff (garray (nth a v dgv))), t)) (vval w a) kx))
     (wrapF g (fun kx => stencil_average (gshape g) (fn (goff (garray (nth a v' dgv)), half_a_cell b (goff (garray (nth a v' dgv))), t)) (table_weight D' logits' (goff (garray (nth a v' dgv)), half_a_cell b (goff (garray (nth a v' dgv))), t)) (vval w' a) kx))).
  { intros a b t Ha Hb. assert (Eo : off_eq (goff (garray (nth a v dgv))) (goff (garray (nth a v' dgv)))).
    { pose proof (pv_offs_match Hv Hv') as HM2. eapply (@F2_nth _ _ _ _ _ a _ _ HM2); apply nth_error_nth'; lia. }
    rewrite <- (@Hfn (goff (garray (nth a v dgv))) (goff (garray (nth a v' dgv))) (half_a_cell b (goff (garray (nth a v dgv)))) (half_a_cell b (goff (garray (nth a v' dgv)))) t Eo (@half_cong b _ _ Eo)).
    eapply rel_ext; [| |apply (@rel_average (gshape g)); [| apply Hwf | apply (periodic_vval (proj1 Hw) Ha) | apply (HCw a Ha)]].
    - intros ix HL. unfold wrapF, stencil_average. rewrite wrap_wrap by exact HL. reflexivity.
    - intros ix HL. unfold wrapF, stencil_average. rewrite wrap_wrap by exact HL. reflexivity.
    - intros ix t0 Hix. apply weights_move; [exact HD | | exact HM | exact Hix]. apply key_eqb_iff. cbn [fst snd]. split; [exact Eo|]. split; [apply half_cong; exact Eo | reflexivity]. }
  eapply (@prep_rel g g (translation L) 1 (translation_grid g L) Hwf); [apply Hwf | exact P | exact P' | |].
  - intros ix HL. f_equal. apply (@periodic_divF g); [|exact HL]. intros i Hi ix' HL'. f_equal; apply wrapF_periodic; exact HL'.
  - apply rel_opp. apply (@rel_eq g (translation L) (1 * 1 / 1) 1); [field|]. apply (@rel_divF g g (translation L) 1 (translation_grid g L) Rlt_0_1 Hwf). intros i Hi. apply rel_mult; apply HR; assumption.
Qed.
Lemma alike_eq g g' o o' bs bs' p k m m' f f' : m = m' -> treat_alike g g' o o' bs bs' p k m f f' -> treat_alike g g' o o' bs bs' p k m' f f'.
Proof. intros <-. auto. Qed.
Lemma summed_alone g o bs L f f' : (0 < gndim g)%nat -> treat_alike g g o o bs bs (translation L) 1 1 f f' -> treat_alike g g o o bs bs (translation L) 1 1 (ml_sum_forcings [f]) (ml_sum_forcings [f']).
Proof.
  intros Hd H w w' Hw Hw' HC. destruct (H w w' Hw Hw' HC) as (l & l' & F & F' & E & E' & HF & HF' & HR). unfold ml_sum_forcings. cbn [mapM]. rewrite E, E'. cbn [bind].
  destruct (@sum_fields_pointwise_lem g w [l] (fun _ => F)) as (s & Es & Hs); [cbn; lia | intros [|k] x Hx; cbn in Hx; [injection Hx as <-; exact HF | destruct k; discriminate Hx]|].
  destruct (@sum_fields_pointwise_lem g w' [l'] (fun _ => F')) as (s' & Es' & Hs'); [cbn; lia | intros [|k] x Hx; cbn in Hx; [injection Hx as <-; exact HF' | destruct k; discriminate Hx]|].
  eexists s, s', _, _. split; [exact Es|]. split; [exact Es'|]. split; [exact Hs|]. split; [exact Hs'|].
  assert (G : forall v0 l0 s0 F0 i y, periodic_velocity g o bs v0 -> fields_at g v0 l0 F0 -> fields_at g v0 s0 (fun i ix => nsum (length [l0]) (fun _ => F0 i ix)) -> (i < gndim g)%nat -> nth_error s0 i = Some y ->
     exists x, nth_error l0 i = Some x /\ forall ix, length ix = gndim g -> pval y ix = pval x ix).
  { intros v0 l0 s0 F0 i y Hv (L1 & P1) (L2 & P2) Hi Hy. pose proof (pv_len Hv) as Lv. pose proof (pv_wfg Hd Hv) as Hwf. exists (nth i l0 dga). assert (Ex : nth_error l0 i = Some (nth i l0 dga)) by (apply nth_error_nth'; lia). split; [exact Ex|].
    assert (Eu : nth_error v0 i = Some (nth i v0 dgv)) by (apply nth_error_nth'; lia). destruct (P1 i _ _ Eu Ex) as (_ & _ & S1 & V1). destruct (P2 i _ _ Eu Hy) as (_ & _ & S2 & V2).
    intros ix HL. unfold pval. rewrite S1, S2. rewrite V1, V2 by (apply inb_wrap; [apply Hwf | exact HL]). cbn [nsum length Nat.iter nat_rect]. unfold nsum. cbn. ring. }
  intros i y y' Hi Hy Hy'. destruct (G w l s F (to_axis (translation L) i) y Hw HF Hs) as (x & Hx & Ey); [exact Hi | exact Hy|]. destruct (G w' l' s' F' i y' Hw' HF' Hs') as (x' & Hx' & Ey'); [exact Hi | exact Hy'|].
  intros ix HL. rewrite Ey' by exact HL. rewrite Ey by apply under_length. apply (HR i x x' Hi Hx Hx' ix HL).
Qed.
(* @prop C76 The whole learned solver does not care where things are: start one run of modular_navier_stokes_model (learned self-advection on top of the semi-implicit solver, any explicit tableau, viscosity, density and time step) from a staggered periodic velocity and another from the same velocity translated by any number of cells along every axis; if the network moves along with its input, the forcings treat translated velocities alike and the pressure solvers solve their Poisson equation (they need not be the same), then after every number of steps both runs have succeeded and the second state is the first, translated. *)
Lemma learned_solver_translates_lem : forall steps t solve svd psolve psolve' g o bs v v' tags fn tower pm fuse_constraints fuse_patches constrain_with_conv layout density viscosity dt forcing forcing' L,
  learned_setting solve svd g v tags fn tower -> (forall n, moves_along (gshape g) (gndim g) 1 (gshape g) n (tower n) (tower n)) ->
  options_fit (gshape g) (fun S => exists k, asked v tags k /\ fn k = S) pm fuse_constraints fuse_patches constrain_with_conv layout ->
  In tag_c tags -> In tag_u tags -> length o = gndim g -> explicit_tableau t -> density <> 0%R ->
  solves_poisson g o psolve -> solves_poisson g o psolve' -> treat_alike g g o o bs bs (translation L) 1 1 forcing forcing' ->
  periodic_velocity g o bs v -> periodic_velocity g o bs v' -> copied_velocity (gndim g) (translation L) 1 v v' ->
  let step psolve forcing := modular_navier_stokes_model (fun convect f => semi_implicit_navier_stokes t density viscosity dt convect diffuse psolve f) forcing
      (learned_convection solve svd g dt tags fn tower pm fuse_constraints fuse_patches constrain_with_conv layout) [] in
  exists w w', iterate steps (step psolve forcing) v = Ok w /\ iterate steps (step psolve' forcing') v' = Ok w' /\
    periodic_velocity g o bs w /\ periodic_velocity g o bs w' /\ copied_velocity (gndim g) (translation L) 1 w w'.
Proof.
  intros steps t solve svd ps ps' g o bs v v' tags fn tower pm fc fp cc layout density viscosity dt forcing forcing' L Hset Hmov Hopt Tc Tu Ho Ht Hden Hs Hs' Hf Hv Hv' HC step.
  assert (Hd : (0 < gndim g)%nat) by apply Hset. assert (Hfn : by_value fn) by apply Hset.
  revert v v' Hset Hopt Hv Hv' HC. induction steps as [|m IH]; intros v v' Hset Hopt Hv Hv' HC; cbn [iterate].
  - exists v, v'. auto.
  - destruct (@semi_rel t g g (translation L) 1 o o bs bs 1 dt dt density density viscosity viscosity
      (learned_convection solve svd g dt tags fn tower pm fc fp cc layout v) (learned_convection solve svd g dt tags fn tower pm fc fp cc layout v')
      (Some (ml_sum_forcings [forcing])) (Some (ml_sum_forcings [forcing'])) ps ps' v v') as (w & w' & E & E' & (Pw & Pw' & RW)); auto.
    + apply translation_grid.
    + lra.
    + apply translation_offset. exact Ho.
    + lra.
    + destruct viscosity; cbn; [field; exact Hden | exact I].
    + apply (@alike_eq g g o o bs bs (translation L) 1 1); [field|]. apply learned_convection_translates_lem; assumption.
    + apply (@alike_eq g g o o bs bs (translation L) 1 1); [field; exact Hden|]. apply summed_alone; assumption.
    + split; [exact Hv|]. split; [exact Hv' | exact HC].
    + unfold step at 1, modular_navier_stokes_model at 1. cbn [map]. rewrite E. unfold step at 2, modular_navier_stokes_model at 1. cbn [map]. rewrite E'. cbn [bind].
      apply IH; auto; [apply (setting_transfer Hv Pw Hset) | apply (options_transfer Hfn Hv Pw Hopt)].
Qed.

(** ** examples: the velocity of LearnedSolverProps moved by one cell along the first axis and by two along the second; an MLP tower *)
Definition by12 (a : nat) : Z := if (a =? 0)%nat then 1 else 2.
Definition q34w : list gvar :=
  [mkgv (mkga (mkarr [3%nat; 4%nat] (fun ix => vval q34v 0 (under 2 (translation by12) ix))%R) [1%Q; (1 # 2)%Q] q34g) (periodic_bc 2);
   mkgv (mkga (mkarr [3%nat; 4%nat] (fun ix => vval q34v 1 (under 2 (translation by12) ix))%R) [(1 # 2)%Q; 1%Q] q34g) (periodic_bc 2)].
Lemma q34w_pv : periodic_velocity q34g half2 p34bs q34w.
Proof.
  split; [|split; [|split; [|reflexivity]]].
  - split; [reflexivity|]. repeat constructor; (lia || lra).
  - repeat constructor.
  - intros [|[|[|i]]] u H; simpl in H; try discriminate H; injection H as <-; repeat constructor.
Qed.
Lemma q34w_copy : copied_velocity (gndim q34g) (translation by12) 1 q34v q34w.
Proof.
  assert (P : forall j, (j < 2)%nat -> periodic (gshape q34g) (fun ix => vval q34v j (under 2 (translation by12) ix))).
  { intros j Hj. apply (@sym_periodic q34g q34g (translation by12) 1 (translation_grid q34g by12)). apply (periodic_vval (proj1 q34_pv)). exact Hj. }
  intros i Hi ix HL. change (gndim q34g) with 2%nat in *. cbn [translation to_axis]. rewrite Rmult_1_l. destruct i as [|[|i]]; [| |lia].
  - exact (P 0%nat ltac:(lia) ix HL).
  - exact (P 1%nat ltac:(lia) ix HL).
Qed.
Definition q34_net (n : nat) : arr R -> result (arr R) := mlp_tower n 2 8 2 (Rmax 0) no_scale no_scale (fun _ => p33).
Lemma q34_net_moves n : moves_along (gshape q34g) (gndim q34g) 1 (gshape q34g) n (q34_net n) (q34_net n).
Proof. apply (@mlp_tower_moves_along_lem n 8 2 (Rmax 0) no_scale no_scale (fun _ => p33) 2 [3; 4]%nat); [intros [|[|i]] Hi; cbn in *; lia | apply no_scale_plain | apply no_scale_plain]. Qed.
Lemma q34_net_setting : learned_setting cramer (cand_svd []) q34g q34v [tag_c; tag_u] (isotropic_sizes 2 2) q34_net /\
  options_fit (gshape q34g) (fun S => exists k, asked q34v [tag_c; tag_u] k /\ isotropic_sizes 2 2 k = S) PRoll true false false None.
Proof.
  destruct (q34_setting (fun _ => 0%R) q34_pv) as ((H1 & H2 & H3 & H4 & H5 & H6 & H7 & H8 & H9 & H10 & H11 & _) & B). split; [|exact B].
  do 11 (split; [assumption|]). intros n x Hx. apply (moves_total (q34_net_moves n) Hx).
Qed.
(* @ex *)
Lemma learned_convection_translates_ex_lem : exists l l' x x', learned_convection cramer (cand_svd []) q34g 1 [tag_c; tag_u] (isotropic_sizes 2 2) q34_net PRoll true false false None q34v q34v = Ok l /\
  learned_convection cramer (cand_svd []) q34g 1 [tag_c; tag_u] (isotropic_sizes 2 2) q34_net PRoll true false false None q34w q34w = Ok l' /\ nth_error l 0 = Some x /\ nth_error l' 0 = Some x' /\
  pval x' [1; 2] = pval x [0; 0].
Proof.
  destruct q34_net_setting as (A & B).
  destruct (@learned_convection_translates_lem cramer (cand_svd []) q34g half2 p34bs q34v q34w [tag_c; tag_u] (isotropic_sizes 2 2) q34_net PRoll true false false None 1 by12 A q34_net_moves B (or_introl eq_refl) (or_intror (or_introl eq_refl)) q34_pv q34w_pv q34w_copy
    q34v q34w q34_pv q34w_pv q34w_copy) as (l & l' & F & F' & E & E' & (Ll & _) & (Ll' & _) & HR).
  change (length q34v) with 2%nat in Ll. change (length q34w) with 2%nat in Ll'. destruct l as [|x l]; [discriminate Ll|]. destruct l' as [|x' l']; [discriminate Ll'|].
  exists (x :: l), (x' :: l'), x, x'. split; [exact E|]. split; [exact E'|]. split; [reflexivity|]. split; [reflexivity|].
  rewrite (HR 0%nat x x' ltac:(cbn; lia) eq_refl eq_refl [1; 2] eq_refl). rewrite Rmult_1_l. reflexivity.
Qed.
(* @ex *)
Lemma learned_solver_translates_ex_lem : forall tpu eigh, learned_setting cramer (cand_svd []) q34g q34v [tag_c; tag_u] (isotropic_sizes 2 2) q34_net /\ (forall n, moves_along (gshape q34g) (gndim q34g) 1 (gshape q34g) n (q34_net n) (q34_net n)) /\
  options_fit (gshape q34g) (fun S => exists k, asked q34v [tag_c; tag_u] k /\ isotropic_sizes 2 2 k = S) PRoll true false false None /\
  solves_poisson q34g half2 (fun v _ b => pressure_solve_fast_diag tpu eigh (1 / 1000) v (Some b) (Some Fft)) /\ treat_alike q34g q34g half2 half2 p34bs p34bs (translation by12) 1 1 tailwind tailwind /\
  periodic_velocity q34g half2 p34bs q34v /\ periodic_velocity q34g half2 p34bs q34w /\ copied_velocity (gndim q34g) (translation by12) 1 q34v q34w.
Proof. intros tpu eigh. destruct q34_net_setting as (A & B). split; [exact A|]. split; [exact q34_net_moves|]. split; [exact B|]. split; [apply q34_solver|]. split; [apply tailwind_alike|]. split; [exact q34_pv|]. split; [exact q34w_pv | exact q34w_copy]. Qed.
