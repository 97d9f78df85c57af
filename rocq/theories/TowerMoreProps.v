(** * Scalings, complete towers, residual towers, MLP towers *)
From Verif Require Import Prelude NdArr ArrayUtils_model Tiling_model Equations_model Towers_model SpecTile SpecTower SpecLInt TilingProofs TilingProps EquationsMoreProps TowerProps.
Set Implicit Arguments.
Local Open Scope Z_scope.

(** ** rescaling to a range *)
Lemma in_all_indices s : forall ix, In ix (all_indices s) -> inb s ix.
Proof.
  induction s as [|n s IH]; intros ix H.
  - destruct H as [<- | []]. exact I.
  - cbn [all_indices] in H. apply in_flat_map in H. destruct H as (i & Hi & H). apply in_seq in Hi. apply in_map_iff in H. destruct H as (jx & <- & H). cbn [inb]. split; [lia | apply IH; exact H].
Qed.
Lemma slice_in s axes ix jx : inb s ix -> (In jx (slice_indices s axes ix) <-> same_slice s axes ix jx).
Proof.
  intros Hix. unfold slice_indices, same_slice. rewrite filter_In. split.
  - intros (H1 & H2). apply in_all_indices in H1. split; [exact Hix|]. split; [exact H1|]. intros i Hi. pose proof (inb_length _ _ H1) as L1. pose proof (inb_length _ _ Hix) as L2.
    destruct (Nat.lt_ge_cases i (length s)) as [Hl|Hl]; [|rewrite !nth_overflow by lia; reflexivity].
    rewrite forallb_forall in H2. specialize (H2 i). assert (In i (seq 0 (length s))) by (apply in_seq; lia). specialize (H2 H). apply orb_prop in H2. destruct H2 as [H2|H2].
    + apply existsb_exists in H2. destruct H2 as (a & Ha & Ea). apply Nat.eqb_eq in Ea. subst a. contradiction.
    + apply Z.eqb_eq in H2. exact H2.
  - intros (_ & H1 & H2). split; [apply all_indices_inb; exact H1|]. apply forallb_forall. intros i _. destruct (existsb (Nat.eqb i) axes) eqn:E; [reflexivity|]. cbn [orb]. apply Z.eqb_eq. apply H2. intros HI. assert (existsb (Nat.eqb i) axes = true) by (apply existsb_exists; exists i; split; [exact HI | apply Nat.eqb_refl]). congruence.
Qed.
Lemma fold_max_in l : forall h, In (fold_left Rmax l h) (h :: l).
Proof. induction l as [|a l IH]; intros h; [left; reflexivity|]. cbn [fold_left]. destruct (IH (Rmax h a)) as [E|E]; [|right; right; exact E]. rewrite <- E. unfold Rmax. destruct (Rle_dec h a); [right; left | left]; reflexivity. Qed.
Lemma fold_min_in l : forall h, In (fold_left Rmin l h) (h :: l).
Proof. induction l as [|a l IH]; intros h; [left; reflexivity|]. cbn [fold_left]. destruct (IH (Rmin h a)) as [E|E]; [|right; right; exact E]. rewrite <- E. unfold Rmin. destruct (Rle_dec h a); [left | right; left]; reflexivity. Qed.
Lemma fold_max_ub l : forall h y, In y (h :: l) -> (y <= fold_left Rmax l h)%R.
Proof. induction l as [|a l IH]; intros h y [<- | H]; cbn [fold_left]; try contradiction; try lra. - eapply Rle_trans; [apply (Rmax_l h a) | apply IH; left; reflexivity]. - destruct H as [<- | H]; [eapply Rle_trans; [apply (Rmax_r h a) | apply IH; left; reflexivity] | apply IH; right; exact H]. Qed.
Lemma fold_min_lb l : forall h y, In y (h :: l) -> (fold_left Rmin l h <= y)%R.
Proof. induction l as [|a l IH]; intros h y [<- | H]; cbn [fold_left]; try contradiction; try lra. - eapply Rle_trans; [apply IH; left; reflexivity | apply (Rmin_l h a)]. - destruct H as [<- | H]; [eapply Rle_trans; [apply IH; left; reflexivity | apply (Rmin_r h a)] | apply IH; right; exact H]. Qed.
Lemma slice_max_spec x axes ix : inb (shp x) ix -> (forall jx, same_slice (shp x) axes ix jx -> (get x jx <= slice_max x axes ix)%R) /\ exists jx, same_slice (shp x) axes ix jx /\ get x jx = slice_max x axes ix.
Proof.
  intros Hix. unfold slice_max. set (l := map (get x) (slice_indices (shp x) axes ix)).
  assert (Hin : forall jx, same_slice (shp x) axes ix jx -> In (get x jx) l) by (intros jx H; apply in_map; apply slice_in; assumption).
  assert (Hout : forall v, In v l -> exists jx, same_slice (shp x) axes ix jx /\ get x jx = v) by (intros v H; apply in_map_iff in H; destruct H as (jx & <- & H); exists jx; split; [apply slice_in; assumption | reflexivity]).
  clearbody l. destruct l as [|h l]; [exfalso; apply (Hin ix); repeat split; auto|]. split; [intros jx H; apply fold_max_ub; apply Hin; exact H | apply Hout; apply fold_max_in].
Qed.
Lemma slice_min_spec x axes ix : inb (shp x) ix -> (forall jx, same_slice (shp x) axes ix jx -> (slice_min x axes ix <= get x jx)%R) /\ exists jx, same_slice (shp x) axes ix jx /\ get x jx = slice_min x axes ix.
Proof.
  intros Hix. unfold slice_min. set (l := map (get x) (slice_indices (shp x) axes ix)).
  assert (Hin : forall jx, same_slice (shp x) axes ix jx -> In (get x jx) l) by (intros jx H; apply in_map; apply slice_in; assumption).
  assert (Hout : forall v, In v l -> exists jx, same_slice (shp x) axes ix jx /\ get x jx = v) by (intros v H; apply in_map_iff in H; destruct H as (jx & <- & H); exists jx; split; [apply slice_in; assumption | reflexivity]).
  clearbody l. destruct l as [|h l]; [exfalso; apply (Hin ix); repeat split; auto|]. split; [intros jx H; apply fold_min_lb; apply Hin; exact H | apply Hout; apply fold_min_in].
Qed.
Lemma slice_trans s axes ix jx kx : same_slice s axes ix jx -> same_slice s axes ix kx -> same_slice s axes jx kx.
Proof. intros (_ & B & C) (_ & D & E). split; [exact B|]. split; [exact D|]. intros i Hi. rewrite E, C by exact Hi. reflexivity. Qed.
Lemma slice_same s axes ix jx : same_slice s axes ix jx -> same_slice s axes jx ix.
Proof. intros (A & B & C). split; [exact B|]. split; [exact A|]. intros i Hi. symmetry. apply C. exact Hi. Qed.
Lemma slice_max_same x axes ix jx : same_slice (shp x) axes ix jx -> slice_max x axes jx = slice_max x axes ix.
Proof.
  intros H. pose proof H as (A & B & _). destruct (@slice_max_spec x axes ix A) as (U1 & k1 & K1 & E1). destruct (@slice_max_spec x axes jx B) as (U2 & k2 & K2 & E2). apply Rle_antisym.
  - rewrite <- E2. apply U1. eapply slice_trans; [apply slice_same; exact H | exact K2].
  - rewrite <- E1. apply U2. eapply slice_trans; [exact H | exact K1].
Qed.
Lemma slice_min_same x axes ix jx : same_slice (shp x) axes ix jx -> slice_min x axes jx = slice_min x axes ix.
Proof.
  intros H. pose proof H as (A & B & _). destruct (@slice_min_spec x axes ix A) as (U1 & k1 & K1 & E1). destruct (@slice_min_spec x axes jx B) as (U2 & k2 & K2 & E2). apply Rle_antisym.
  - rewrite <- E1. apply U2. eapply slice_trans; [exact H | exact K1].
  - rewrite <- E2. apply U1. eapply slice_trans; [apply slice_same; exact H | exact K2].
Qed.
Lemma rescale_ok x lo hi axes : (forall i, In i axes -> (i < length (shp x))%nat /\ (0 < nth i (shp x) 0)%nat) ->
  rescale_to_range x lo hi axes = Ok (mkarr (shp x) (fun ix => ((get x ix - slice_min x axes ix) / ((slice_max x axes ix - slice_min x axes ix) / (hi - lo)) + lo)%R)).
Proof.
  intros H. unfold rescale_to_range. unfold ndim. replace (existsb (fun i => (length (shp x) <=? i)%nat) axes) with false.
  2:{ symmetry. apply not_true_is_false. intros E. apply existsb_exists in E. destruct E as (i & Hi & E). apply Nat.leb_le in E. destruct (H i Hi). lia. }
  replace (existsb _ axes) with false; [reflexivity|]. symmetry. apply not_true_is_false. intros E. apply existsb_exists in E. destruct E as (i & Hi & E). apply Nat.eqb_eq in E. destruct (H i Hi). lia.
Qed.
(* @prop C72 Rescaling to a range: in every slice along the given axes that is not constant, the values end up between min_value and max_value, in the same order, and both ends are reached. *)
Lemma rescale_range_lem : forall x lo hi axes, (lo < hi)%R -> (forall i, In i axes -> (i < length (shp x))%nat /\ (0 < nth i (shp x) 0)%nat) ->
  exists y, rescale_to_range x lo hi axes = Ok y /\ shp y = shp x /\
    forall ix jx, same_slice (shp x) axes ix jx -> get x ix <> get x jx ->
      (lo <= get y ix <= hi)%R /\ (get x ix <= get x jx <-> get y ix <= get y jx)%R /\
      (exists kx, same_slice (shp x) axes ix kx /\ get y kx = lo) /\ (exists kx, same_slice (shp x) axes ix kx /\ get y kx = hi).
Proof.
  intros x lo hi axes Hlh Hax. rewrite (@rescale_ok x lo hi axes Hax). eexists; split; [reflexivity|]. split; [reflexivity|]. cbn [get shp]. intros ix jx H Hne. pose proof H as (Hi & Hj & _).
  set (M := slice_max x axes ix). set (m := slice_min x axes ix).
  assert (ES : forall kx, same_slice (shp x) axes ix kx -> slice_max x axes kx = M /\ slice_min x axes kx = m) by (intros kx Hk; split; [apply slice_max_same | apply slice_min_same]; exact Hk).
  destruct (@slice_max_spec x axes ix Hi) as (U & ku & Ku & Eu). destruct (@slice_min_spec x axes ix Hi) as (Lw & kl & Kl & El). fold M in U, Eu. fold m in Lw, El.
  assert (Hs : same_slice (shp x) axes ix ix) by (repeat split; auto).
  pose proof (U ix Hs). pose proof (Lw ix Hs). pose proof (U jx H). pose proof (Lw jx H).
  assert (HMm : (0 < M - m)%R) by (destruct (Req_dec M m) as [E|E]; [exfalso; apply Hne; lra | lra]).
  assert (EF : forall v, ((v - m) / ((M - m) / (hi - lo)) + lo = lo + (v - m) * ((hi - lo) / (M - m)))%R) by (intros v; field; split; lra).
  assert (Hp : (0 < (hi - lo) / (M - m))%R) by (apply Rdiv_lt_0_compat; lra). set (r := ((hi - lo) / (M - m))%R) in *.
  assert (Er : ((M - m) * r = hi - lo)%R) by (unfold r; field; lra).
  destruct (ES jx H) as (-> & ->). rewrite !EF. split; [split; nra|]. split; [split; nra|]. split.
  - exists kl. split; [exact Kl|]. destruct (ES kl Kl) as (-> & ->). rewrite EF, El. ring.
  - exists ku. split; [exact Ku|]. destruct (ES ku Ku) as (-> & ->). rewrite EF, Eu. nra.
Qed.
Lemma inb_split (N : list nat) c ix : inb (N ++ [c]) ix -> exists j o, ix = j ++ [o] /\ inb N j /\ inb [c] [o].
Proof. intros H. destruct (inb_last _ _ _ H) as (j & o & -> & Hj & Ho). exists j, o. split; [reflexivity|]. split; [exact Hj|]. cbn. auto. Qed.
Lemma space_slice (N : list nat) c j o jx : inb N j -> (0 <= o < Z.of_nat c) -> same_slice (N ++ [c]) (seq 0 (length N)) (j ++ [o]) jx <-> exists j', inb N j' /\ jx = j' ++ [o].
Proof.
  intros Hj Ho. split.
  - intros (_ & H & E). destruct (inb_last _ _ _ H) as (j' & o' & -> & Hj' & Ho'). exists j'. split; [exact Hj'|]. f_equal. f_equal. pose proof (inb_length _ _ Hj) as L. pose proof (inb_length _ _ Hj') as L'.
    specialize (E (length N)). rewrite !nth_post in E by assumption. apply E. rewrite in_seq. lia.
  - intros (j' & Hj' & ->). split; [apply inb_app_intro; [exact Hj | cbn; auto]|]. split; [apply inb_app_intro; [exact Hj' | cbn; auto]|]. intros i Hi. rewrite in_seq in Hi. pose proof (inb_length _ _ Hj) as L. pose proof (inb_length _ _ Hj') as L'.
    rewrite !app_nth2 by lia. rewrite L, L'. reflexivity.
Qed.
Lemma cell_back N ix k : inb N ix -> cell_at N [] (cell_at N [] ix (map Z.opp k)) k = ix.
Proof.
  intros H. pose proof (inb_length _ _ H) as L. apply (list_ext_nth 0); [rewrite cell_at_len; congruence|]. intros i Hi. rewrite cell_at_len in Hi. rewrite !cell_at_nth by exact Hi. rewrite nth_nil_nat, !Z.sub_0_r.
  pose proof (@inb_nth _ _ i H Hi) as R. rewrite Z.add_mod_idemp_l by lia. replace (nth i (map Z.opp k) 0) with (- nth i k 0) by (symmetry; change 0 with (Z.opp 0); rewrite map_nth; reflexivity).
  replace (nth i ix 0 + - nth i k 0 + nth i k 0) with (nth i ix 0) by ring. apply Z.mod_small. exact R.
Qed.
Lemma moved_slices k N c x y j o : (forall i, (i < length N)%nat -> (0 < nth i N 0)%nat) -> moved k N c x y -> inb N j -> 0 <= o < Z.of_nat c ->
  slice_max y (seq 0 (length N)) (j ++ [o]) = slice_max x (seq 0 (length N)) (cell_at N [] j k ++ [o]) /\ slice_min y (seq 0 (length N)) (j ++ [o]) = slice_min x (seq 0 (length N)) (cell_at N [] j k ++ [o]).
Proof.
  intros HN (Sx & Sy & V) Hj Ho. assert (Hi : forall j, inb N j -> inb (N ++ [c]) (j ++ [o])) by (intros j' Hj'; apply inb_app_intro; [exact Hj' | cbn; auto]).
  assert (Hc : forall j t, inb N (cell_at N [] j t)) by (intros; apply cell_at_inb; exact HN).
  destruct (@slice_max_spec y (seq 0 (length N)) (j ++ [o])) as (U1 & k1 & K1 & E1); [rewrite Sy; auto|]. destruct (@slice_max_spec x (seq 0 (length N)) (cell_at N [] j k ++ [o])) as (U2 & k2 & K2 & E2); [rewrite Sx; auto|].
  destruct (@slice_min_spec y (seq 0 (length N)) (j ++ [o])) as (U3 & k3 & K3 & E3); [rewrite Sy; auto|]. destruct (@slice_min_spec x (seq 0 (length N)) (cell_at N [] j k ++ [o])) as (U4 & k4 & K4 & E4); [rewrite Sx; auto|].
  rewrite Sy in *. rewrite Sx in *.
  assert (F : forall jx, same_slice (N ++ [c]) (seq 0 (length N)) (j ++ [o]) jx -> exists jx', same_slice (N ++ [c]) (seq 0 (length N)) (cell_at N [] j k ++ [o]) jx' /\ get y jx = get x jx').
  { intros jx H. apply space_slice in H; [|exact Hj | exact Ho]. destruct H as (j' & Hj' & ->). exists (cell_at N [] j' k ++ [o]). split; [apply space_slice; auto; eexists; split; [|reflexivity]; auto | apply V; auto]. }
  assert (G : forall jx, same_slice (N ++ [c]) (seq 0 (length N)) (cell_at N [] j k ++ [o]) jx -> exists jx', same_slice (N ++ [c]) (seq 0 (length N)) (j ++ [o]) jx' /\ get x jx = get y jx').
  { intros jx H. apply space_slice in H; [|auto | exact Ho]. destruct H as (j' & Hj' & ->). exists (cell_at N [] j' (map Z.opp k) ++ [o]). split; [apply space_slice; auto; eexists; split; [|reflexivity]; auto|]. rewrite V by auto. rewrite cell_back by exact Hj'. reflexivity. }
  split; apply Rle_antisym.
  - rewrite <- E1. destruct (F _ K1) as (q & Q & ->). apply U2. exact Q.
  - rewrite <- E2. destruct (G _ K2) as (q & Q & ->). apply U1. exact Q.
  - rewrite <- E4. destruct (G _ K4) as (q & Q & ->). apply U3. exact Q.
  - rewrite <- E3. destruct (F _ K3) as (q & Q & ->). apply U4. exact Q.
Qed.
(* @prop C72 The scalings that come with towers (none, by a fixed factor, to a range over all of space) keep the shape and do not care where on the grid things are. *)
Lemma scalings_are_plain_lem : forall d s lo hi, plain_scaling d (fun x => no_scale x (seq 0 d)) /\ plain_scaling d (fun x => fixed_scale s x (seq 0 d)) /\ plain_scaling d (fun x => scale_to_range lo hi x (seq 0 d)).
Proof.
  intros d s lo hi. split; [|split]; intros N c Hd HN k x y Hk H; rewrite mul_one in H.
  - exists x, y. auto.
  - do 2 eexists. split; [reflexivity|]. split; [reflexivity|]. apply amap_moved. exact H.
  - pose proof H as (Sx & Sy & V). unfold scale_to_range.
    assert (Hax : forall z : arr R, channels_last z N c -> forall i, In i (seq 0 d) -> (i < length (shp z))%nat /\ (0 < nth i (shp z) 0)%nat).
    { intros z Sz i Hi. apply in_seq in Hi. rewrite Sz, app_length. cbn [length]. split; [lia|]. rewrite app_nth1 by lia. apply HN. lia. }
    rewrite !rescale_ok by (apply Hax; assumption). do 2 eexists. split; [reflexivity|]. split; [reflexivity|]. split; [exact Sx|]. split; [exact Sy|]. cbn [get shp]. intros ix o Hin. destruct (inb_last _ _ _ Hin) as (j & cc & Ej & Hj & Hc). apply app_inj_tail in Ej. destruct Ej as (<- & <-).
    rewrite <- Hd. destruct (@moved_slices k N c x y ix o HN H Hj Hc) as (-> & ->). rewrite V by exact Hin. reflexivity.
Qed.

(** ** complete towers *)
Lemma moved_self N c x : channels_last x N c -> moved (repeat 0 (length N)) N c x x.
Proof.
  intros H. split; [exact H|]. split; [exact H|]. intros ix o Hin. destruct (inb_last _ _ _ Hin) as (j & cc & Ej & Hj & _). apply app_inj_tail in Ej. destruct Ej as (<- & <-). do 2 f_equal. symmetry. pose proof (inb_length _ _ Hj) as L.
  apply (list_ext_nth 0); [rewrite cell_at_len; congruence|]. intros i Hi. rewrite cell_at_len in Hi. rewrite cell_at_nth by exact Hi. rewrite nth_nil_nat, nth_repeat' by exact Hi. rewrite Z.add_0_r, Z.sub_0_r. apply Z.mod_small. apply inb_nth; assumption.
Qed.
Lemma moves_total N c s N' c' T1 T2 : moves_along N c s N' c' T1 T2 -> forall x, channels_last x N c -> (exists y, T1 x = Ok y /\ channels_last y N' c') /\ (exists y, T2 x = Ok y /\ channels_last y N' c').
Proof.
  intros H x Hx. destruct (H (repeat 0 (length N)) x x) as (y1 & y2 & E1 & E2 & S1 & S2 & _); [apply repeat_length | |].
  - replace (map (Z.mul (Z.of_nat s)) (repeat 0 (length N))) with (repeat 0 (length N)); [apply moved_self; exact Hx|]. generalize (length N). induction n as [|n IH]; [reflexivity|]. cbn [repeat map]. rewrite <- IH. f_equal. ring.
  - split; eauto.
Qed.
Lemma map_mul_1 l : map (Nat.mul 1) l = l. Proof. rewrite <- (map_id l) at 2. apply map_ext. intros a. lia. Qed.
Lemma total_repeat n l : snd (snd l) = 1%nat -> total_stride (repeat l n) = 1%nat.
Proof. intros H. induction n as [|n IH]; [reflexivity|]. cbn [repeat]. rewrite total_cons, H, IH. reflexivity. Qed.
Lemma combine_rep {A B} (a : A) (b : B) n : combine (repeat a n) (repeat b n) = repeat (a, b) n.
Proof. induction n as [|n IH]; [reflexivity|]. cbn. rewrite IH. reflexivity. Qed.
Lemma holds_rep d N rate k : length N = d -> (0 < rate)%nat -> (0 < k)%nat -> (forall i, (i < d)%nat -> (0 < nth i N 0 /\ span rate k / 2 <= nth i N 0)%nat) -> tile_holds rate (repeat k d) N.
Proof.
  intros Hd Hr Hk H. split; [rewrite repeat_length; congruence|]. split; [exact Hr|]. intros i Hi. rewrite nth_repeat' by lia. destruct (H i ltac:(lia)). auto.
Qed.
(* @prop C72 The standard tower (any number of hidden layers and channels, any kernel size, dilation rate, nonlinearity and weights, stride one) keeps the grid: on every grid of one to three axes that is at least half a dilated kernel wide it returns the requested number of channels over the same grid, and moves along with its input. *)
Lemma standard_tower_keeps_grid_lem : forall d hidden kernel_size n rate output_kernel output_rate nonlinearity inputs_scale output_scale ps N, (1 <= d <= 3)%nat -> length N = d ->
  (0 < rate)%nat -> (0 < kernel_size)%nat -> (0 < output_rate)%nat -> (0 < output_kernel)%nat ->
  (forall i, (i < d)%nat -> (0 < nth i N 0 /\ span rate kernel_size / 2 <= nth i N 0 /\ span output_rate output_kernel / 2 <= nth i N 0)%nat) ->
  plain_scaling d (fun x => inputs_scale x (seq 0 d)) -> plain_scaling d (fun x => output_scale x (seq 0 d)) ->
  let tower := fun cout x => let* T := forward_tower cout d hidden kernel_size n (inl rate) (inl 1%nat) output_kernel output_rate 1 (periodic_convolution_module None) nonlinearity inputs_scale output_scale ps in T x in
  forall cin, keeps_grid N cin tower /\ forall cout, moves_along N cin 1 N cout (tower cout) (tower cout).
Proof.
  intros d hidden k n rate ok orate sigma isc osc ps N Hd HL Hr Hk Hor Hok HN Hi Ho tower cin.
  assert (HM : forall cout, moves_along N cin 1 N cout (tower cout) (tower cout)).
  { intros cout. set (layers := tower_layers (length (repeat hidden n)) (repeat (repeat k d) n) (inl rate) (inl 1%nat) (repeat ok d, (orate, 1%nat))).
    assert (EL : layers = repeat (repeat k d, (rate, 1%nat)) n ++ [(repeat ok d, (orate, 1%nat))]).
    { unfold layers, tower_layers, per_layer. rewrite repeat_length. rewrite !combine_rep. reflexivity. }
    assert (HT : total_stride layers = 1%nat).
    { rewrite EL. clear. induction n as [|n IH]; [reflexivity|]. cbn [repeat app]. rewrite total_cons, IH. reflexivity. }
    assert (HH : tiles_hold N layers).
    { rewrite EL. clear - Hr Hk Hor Hok HN HL. induction n as [|n IH]; cbn [repeat app tiles_hold].
      - split; [apply holds_rep; auto; intros i Hi; destruct (HN i Hi) as (? & ? & ?); auto|]. split; [lia|]. exists N. rewrite map_mul_1. auto.
      - split; [apply holds_rep; auto; intros i Hi; destruct (HN i Hi) as (? & ? & ?); auto|]. split; [lia|]. exists N. rewrite map_mul_1. auto. }
    destruct (@tower_moves_along_lem cout d (repeat hidden n) (repeat (repeat k d) n) (inl rate) (inl 1%nat) (repeat ok d) orate 1 sigma isc osc ps N N cin None None N N HL) as (T1 & T2 & E1 & E2 & M); fold layers.
    - unfold one_per_layer, per_layer. rewrite !repeat_length. auto.
    - unfold layout_for. apply tiled_one. lia.
    - exact HH.
    - unfold layout_for. apply tiled_one. lia.
    - exact HH.
    - rewrite HT, map_mul_1. reflexivity.
    - exact Hi.
    - exact Ho.
    - fold layers in M. rewrite HT in M. unfold tower, forward_tower. rewrite E1. rewrite E1 in E2. injection E2 as <-. cbn [bind]. exact M. }
  split; [|exact HM]. intros cout x Hx. apply (@moves_total _ _ _ _ _ _ _ (HM cout) x Hx).
Qed.

(** ** residual towers *)
Lemma arr_add_ok N c a b : channels_last a N c -> channels_last b N c -> arr_add a b = Ok (amap2 Rplus a b).
Proof.
  intros Sa Sb. unfold arr_add. rewrite Sa, Sb, Nat.eqb_refl. cbn [andb]. replace (forallb _ _) with true; [reflexivity|]. symmetry. apply forallb_forall. intros (u, v) H.
  assert (E : u = v); [|cbn [fst snd]; rewrite E; apply Nat.eqb_refl]. clear Sa Sb. induction (N ++ [c]) as [|w l IH]; [contradiction|]. destruct H as [E|H]; [injection E as <- <-; reflexivity | apply IH; exact H].
Qed.
Lemma add_moved k N c a b a' b' : moved k N c a a' -> moved k N c b b' -> moved k N c (amap2 Rplus a b) (amap2 Rplus a' b').
Proof. intros (S1 & S2 & V) (_ & _ & V'). split; [exact S1|]. split; [exact S2|]. intros ix o H. cbn [amap2 get]. rewrite V, V' by exact H. reflexivity. Qed.
Lemma last_channel N c (x : arr R) : channels_last x N c -> last (shp x) 0%nat = c.
Proof. intros ->. apply last_last. Qed.
Lemma blocks_move N w block1 block2 skip1 skip2 : (forall i n c, exists B1 B2, block1 i n = Ok B1 /\ block2 i n = Ok B2 /\ moves_along N c 1 N n B1 B2) ->
  (forall i c, moves_along N c 1 N (w i c) (fun x => skip1 x i) (fun x => skip2 x i)) -> forall n i c, exists c', moves_along N c 1 N c' (run_blocks block1 skip1 i n) (run_blocks block2 skip2 i n).
Proof.
  intros HB HS. induction n as [|n IH]; intros i c.
  - exists c. intros k x1 x2 Hk H. rewrite mul_one in H. exists x1, x2. auto.
  - destruct (IH (S i) (w i c)) as (c' & Hc). exists c'. intros k x1 x2 Hk H. destruct (HS i c k x1 x2 Hk H) as (s1 & s2 & E1 & E2 & Hs). cbn [run_blocks]. rewrite E1, E2. cbn [bind]. pose proof Hs as (S1 & S2 & _).
    rewrite (last_channel S1), (last_channel S2). destruct (HB i (w i c) c) as (B1 & B2 & F1 & F2 & M). rewrite F1, F2. cbn [bind]. destruct (M k x1 x2 Hk H) as (y1 & y2 & G1 & G2 & Hy). rewrite G1, G2. cbn [bind].
    pose proof Hy as (T1 & T2 & _). rewrite (@arr_add_ok N (w i c)), (@arr_add_ok N (w i c)) by assumption. cbn [bind]. apply Hc; [exact Hk|]. rewrite mul_one. apply add_moved; assumption.
Qed.
(* @prop C72 A tower of residual blocks keeps the grid and moves along with its input if its blocks and skip connections do, for any number of blocks: every block adds its output to its skip connection. *)
Lemma residual_tower_moves_along_lem : forall N w cin cout num_blocks block1 block2 skip1 skip2 inputs_scale output_scale, (forall i, (i < length N)%nat -> (0 < nth i N 0)%nat) ->
  (forall i n c, exists B1 B2, block1 i n = Ok B1 /\ block2 i n = Ok B2 /\ moves_along N c 1 N n B1 B2) ->
  (forall i c, moves_along N c 1 N (w i c) (fun x => skip1 x i) (fun x => skip2 x i)) ->
  plain_scaling (length N) (fun x => inputs_scale x (seq 0 (length N))) -> plain_scaling (length N) (fun x => output_scale x (seq 0 (length N))) ->
  moves_along N cin 1 N cout (residual_block_tower cout (length N) num_blocks block1 skip1 inputs_scale output_scale) (residual_block_tower cout (length N) num_blocks block2 skip2 inputs_scale output_scale).
Proof.
  intros N w cin cout nb block1 block2 skip1 skip2 isc osc HN HB HS Hi Ho k x1 x2 Hk H. unfold residual_block_tower.
  destruct (Hi N cin eq_refl HN k x1 x2 Hk H) as (a1 & a2 & A1 & A2 & Ha). rewrite A1, A2. cbn [bind]. destruct (@blocks_move N w block1 block2 skip1 skip2 HB HS (nb - 1) 0%nat cin) as (c' & Hc).
  destruct (Hc k a1 a2 Hk) as (b1 & b2 & B1 & B2 & Hb); [rewrite mul_one; exact Ha|]. rewrite B1, B2. cbn [bind]. destruct (HB (nb - 1)%nat cout c') as (C1 & C2 & F1 & F2 & M). rewrite F1, F2. cbn [bind].
  destruct (M k b1 b2 Hk) as (y1 & y2 & G1 & G2 & Hy); [rewrite mul_one; exact Hb|]. rewrite G1, G2. cbn [bind]. apply (Ho N cout eq_refl HN k y1 y2 Hk). rewrite mul_one. exact Hy.
Qed.
(* @prop C72 A residual connection returns its input plus the output of the module; around a module that returns zeros it is the identity. *)
Lemma residual_connection_adds_lem : forall N c module_ x y, channels_last x N c -> module_ x = Ok y -> channels_last y N c ->
  exists z, residual_connection module_ x = Ok z /\ channels_last z N c /\ forall ix, inb (N ++ [c]) ix -> get z ix = (get x ix + get y ix)%R.
Proof.
  intros N c module_ x y Sx E Sy. unfold residual_connection. rewrite E. cbn [bind]. rewrite (@arr_add_ok N c) by assumption. eexists; split; [reflexivity|]. split; [exact Sx|]. reflexivity.
Qed.

(** ** MLP towers *)
Definition lin_cell (p : params) (cin : nat) (f : Z -> R) (o : Z) : R := (bias p o + rsum cin (fun c => f c * weights p [c; o]))%R.
Fixpoint mlp_cell (sigma : R -> R) (ps : nat -> params) (i cin : nat) (sizes : list nat) (f : Z -> R) : Z -> R :=
  match sizes with
  | [] => f
  | [n] => lin_cell (ps i) cin f
  | n :: rest => mlp_cell sigma ps (S i) n rest (fun c => sigma (lin_cell (ps i) cin f c))
  end.
Lemma mlp_cell_ext sigma ps : forall sizes i cin f g, (forall c, 0 <= c < Z.of_nat cin -> f c = g c) -> sizes <> [] -> forall o, mlp_cell sigma ps i cin sizes f o = mlp_cell sigma ps i cin sizes g o.
Proof.
  assert (HL : forall p cin f g o, (forall c, 0 <= c < Z.of_nat cin -> f c = g c) -> lin_cell p cin f o = lin_cell p cin g o).
  { intros p cin f g o H. unfold lin_cell. f_equal. apply rsum_ext. intros c Hc. rewrite H by exact Hc. reflexivity. }
  induction sizes as [|n rest IH]; intros i cin f g H Hne o; [contradiction|]. destruct rest as [|n' rest]; [apply HL; exact H|]. cbn [mlp_cell]. apply IH; [|discriminate]. intros c _. f_equal. apply HL. exact H.
Qed.
Lemma linear_calc p n N cin x : channels_last x N cin -> exists y, hk_linear p n x = Ok y /\ channels_last y N n /\ forall ix o, length ix = length N -> get y (ix ++ [o]) = lin_cell p cin (fun c => get x (ix ++ [c])) o.
Proof.
  intros Sx. unfold hk_linear, ndim. rewrite Sx, app_length. cbn [length]. replace (length N + 1 =? 0)%nat with false by (symmetry; apply Nat.eqb_neq; lia). rewrite last_last, removelast_last. eexists; split; [reflexivity|]. split; [reflexivity|].
  intros ix o Hix. cbn [get]. rewrite last_last, removelast_last. reflexivity.
Qed.
Lemma mlp_calc sigma ps : forall sizes i cin N x n, channels_last x N cin -> exists y, hk_mlp sigma ps i (sizes ++ [n]) x = Ok y /\ channels_last y N n /\
  forall ix o, length ix = length N -> get y (ix ++ [o]) = mlp_cell sigma ps i cin (sizes ++ [n]) (fun c => get x (ix ++ [c])) o.
Proof.
  induction sizes as [|h rest IH]; intros i cin N x n Sx.
  - cbn [app hk_mlp mlp_cell]. apply linear_calc. exact Sx.
  - destruct (@linear_calc (ps i) h N cin x Sx) as (y & Ey & Sy & Vy). destruct (IH (S i) h N (amap sigma y) n) as (z & Ez & Sz & Vz); [exact Sy|]. exists z.
    assert (E1 : hk_mlp sigma ps i ((h :: rest) ++ [n]) x = (let* y := hk_linear (ps i) h x in hk_mlp sigma ps (S i) (rest ++ [n]) (amap sigma y))) by (destruct rest; reflexivity).
    assert (E2 : forall f, mlp_cell sigma ps i cin ((h :: rest) ++ [n]) f = mlp_cell sigma ps (S i) h (rest ++ [n]) (fun c => sigma (lin_cell (ps i) cin f c))) by (intros f; destruct rest; reflexivity).
    rewrite E1, Ey. cbn [bind]. split; [exact Ez|]. split; [exact Sz|]. intros ix o Hix. rewrite Vz by exact Hix. rewrite E2. apply mlp_cell_ext; [|destruct rest; discriminate]. intros c _. cbn [amap get]. rewrite Vy by exact Hix. reflexivity.
Qed.
(* @prop C72 An MLP tower (without input and output scaling) applies one and the same function of the input channels at every cell of every grid: its output at a cell depends on the input at this cell only. *)
Lemma mlp_tower_is_local_lem : forall cout d units n nonlinearity ps cin, exists F : (Z -> R) -> Z -> R,
  (forall f g o, (forall c, 0 <= c < Z.of_nat cin -> f c = g c) -> F f o = F g o) /\
  forall N x, length N = d -> channels_last x N cin -> exists y, mlp_tower cout d units n nonlinearity no_scale no_scale ps x = Ok y /\ channels_last y N cout /\
    forall ix o, inb (N ++ [cout]) (ix ++ [o]) -> get y (ix ++ [o]) = F (fun c => get x (ix ++ [c])) o.
Proof.
  intros cout d units n sigma ps cin. exists (mlp_cell sigma ps 0 cin (repeat units n ++ [cout])). split.
  - intros f g o H. apply mlp_cell_ext; [exact H|]. destruct (repeat units n); discriminate.
  - intros N x Hd Sx. unfold mlp_tower, no_scale. cbn [bind]. replace (length (shp x) <=? d)%nat with false by (symmetry; apply Nat.leb_gt; rewrite Sx, app_length; cbn; lia).
    destruct (@mlp_calc sigma ps (repeat units n) 0%nat cin N x cout Sx) as (y & Ey & Sy & Vy). rewrite Ey. cbn [bind]. exists y. split; [reflexivity|]. split; [exact Sy|]. intros ix o Hin. apply Vy.
    destruct (inb_last _ _ _ Hin) as (j & cc & Ej & Hj & _). apply app_inj_tail in Ej. destruct Ej as (<- & <-). apply (inb_length _ _ Hj).
Qed.
(* @prop C72 An MLP tower with any of the usual scalings keeps the grid and moves along with its input. *)
Lemma mlp_tower_moves_along_lem : forall cout units n nonlinearity inputs_scale output_scale ps cin N, (forall i, (i < length N)%nat -> (0 < nth i N 0)%nat) ->
  plain_scaling (length N) (fun x => inputs_scale x (seq 0 (length N))) -> plain_scaling (length N) (fun x => output_scale x (seq 0 (length N))) ->
  let tower := mlp_tower cout (length N) units n nonlinearity inputs_scale output_scale ps in moves_along N cin 1 N cout tower tower.
Proof.
  intros cout units n sigma isc osc ps cin N HN Hi Ho tower k x1 x2 Hk H. unfold tower, mlp_tower. destruct (Hi N cin eq_refl HN k x1 x2 Hk H) as (a1 & a2 & A1 & A2 & Ha). rewrite A1, A2. cbn [bind]. pose proof Ha as (S1 & S2 & V).
  rewrite S1, S2, app_length. cbn [length]. replace (length N + 1 <=? length N)%nat with false by (symmetry; apply Nat.leb_gt; lia).
  destruct (@mlp_calc sigma ps (repeat units n) 0%nat cin N a1 cout S1) as (y1 & E1 & T1 & V1). destruct (@mlp_calc sigma ps (repeat units n) 0%nat cin N a2 cout S2) as (y2 & E2 & T2 & V2). rewrite E1, E2. cbn [bind].
  apply (Ho N cout eq_refl HN k y1 y2 Hk). rewrite mul_one. split; [exact T1|]. split; [exact T2|]. intros ix o Hin. destruct (inb_last _ _ _ Hin) as (j & cc & Ej & Hj & _). apply app_inj_tail in Ej. destruct Ej as (<- & <-).
  rewrite V2 by (apply (inb_length _ _ Hj)). rewrite V1 by apply cell_at_len. apply mlp_cell_ext; [|destruct (repeat units n); discriminate]. intros c Hc. apply V. apply inb_app_intro; [exact Hj | cbn; auto].
Qed.

(** ** examples *)
(* @ex *)
Lemma rescale_range_ex_lem : exists y, rescale_to_range x46 (-1) 1 [0; 1]%nat = Ok y /\ same_slice (shp x46) [0; 1]%nat [0; 0; 0] [3; 5; 0] /\ get x46 [0; 0; 0] <> get x46 [3; 5; 0] /\ (-1 <= get y [0%Z; 0%Z; 0%Z] <= 1)%R.
Proof.
  destruct (@rescale_range_lem x46 (-1) 1 [0; 1]%nat ltac:(lra)) as (y & E & _ & H).
  - intros i [<- | [<- | []]]; cbn; lia.
  - assert (A : same_slice (shp x46) [0; 1]%nat [0; 0; 0] [3; 5; 0]).
    { split; [cbn; lia|]. split; [cbn; lia|]. intros [|[|[|i]]] Hi; try reflexivity; exfalso; apply Hi; cbn; auto. }
    assert (B : get x46 [0; 0; 0] <> get x46 [3; 5; 0]) by (cbn; lra). exists y. split; [exact E|]. split; [exact A|]. split; [exact B|]. apply (H _ _ A B).
Qed.
(* @ex *)
Lemma scalings_are_plain_ex_lem : exists y1 y2, scale_to_range 0 1 x46 (seq 0 2) = Ok y1 /\ scale_to_range 0 1 x46 (seq 0 2) = Ok y2 /\ moved (repeat 0 2) [4; 6]%nat 1 y1 y2.
Proof.
  destruct (@scalings_are_plain_lem 2 1 0 1) as (_ & _ & H). apply (H [4; 6]%nat 1%nat eq_refl); [intros [|[|i]] Hi; cbn in *; lia | reflexivity | rewrite mul_one; apply (@moved_self [4; 6]%nat 1 x46 x46_cl)].
Qed.
Lemma standard_46 : forall cin, let tower := fun cout x => let* T := forward_tower cout 2 8 3 2 (inl 1%nat) (inl 1%nat) 3 1 1 (periodic_convolution_module None) (Rmax 0) no_scale no_scale (fun _ => p33) in T x in
  keeps_grid [4; 6]%nat cin tower /\ forall cout, moves_along [4; 6]%nat cin 1 [4; 6]%nat cout (tower cout) (tower cout).
Proof.
  apply (@standard_tower_keeps_grid_lem 2 8 3 2 1 3 1 (Rmax 0) no_scale no_scale (fun _ => p33) [4; 6]%nat); try lia; try reflexivity; try apply no_scale_plain. intros [|[|i]] Hi; cbn in *; lia.
Qed.
(* @ex *)
Lemma standard_tower_keeps_grid_ex_lem : exists y, (let* T := forward_tower 5 2 8 3 2 (inl 1%nat) (inl 1%nat) 3 1 1 (periodic_convolution_module None) (Rmax 0) no_scale no_scale (fun _ => p33) in T x46) = Ok y /\ channels_last y [4; 6]%nat 5.
Proof. destruct (standard_46 1) as (H & _). apply (H 5%nat x46 x46_cl). Qed.
(* @ex *)
Lemma residual_tower_moves_along_ex_lem : exists y, residual_block_tower 3 2 4
    (fun i n => forward_tower n 2 8 3 2 (inl 1%nat) (inl 1%nat) 3 1 1 (periodic_convolution_module None) (Rmax 0) no_scale no_scale (fun _ => p33)) (fun x _ => Ok x) no_scale no_scale x46 = Ok y /\ channels_last y [4; 6]%nat 3.
Proof.
  set (blk := fun (i n : nat) => forward_tower n 2 8 3 2 (inl 1%nat) (inl 1%nat) 3 1 1 (periodic_convolution_module None) (Rmax 0) no_scale no_scale (fun _ => p33)).
  pose proof (@residual_tower_moves_along_lem [4; 6]%nat (fun _ c => c) 1 3 4 blk blk (fun x _ => Ok x) (fun x _ => Ok x) no_scale no_scale) as H. change (length [4; 6]%nat) with 2%nat in H.
  assert (M : moves_along [4; 6]%nat 1 1 [4; 6]%nat 3 (residual_block_tower 3 2 4 blk (fun x _ => Ok x) no_scale no_scale) (residual_block_tower 3 2 4 blk (fun x _ => Ok x) no_scale no_scale)).
  { apply H; try apply no_scale_plain.
    - intros [|[|i]] Hi; cbn in *; lia.
    - intros i n c. assert (E : exists T, blk i n = Ok T) by (eexists; reflexivity). destruct E as (T & E). exists T, T. split; [exact E|]. split; [exact E|]. destruct (standard_46 c) as (_ & M). specialize (M n). unfold blk in E. rewrite E in M. exact M.
    - intros i c k a b Hk Hm. rewrite mul_one in Hm. exists a, b. auto. }
  apply (moves_total M x46_cl).
Qed.
(* @ex *)
Lemma residual_connection_adds_ex_lem : exists z, residual_connection (fun x => Ok (amap (fun _ => 0%R) x)) x46 = Ok z /\ get z [3; 5; 0] = 23%R.
Proof.
  destruct (@residual_connection_adds_lem [4; 6]%nat 1 (fun x => Ok (amap (fun _ => 0%R) x)) x46 _ x46_cl eq_refl eq_refl) as (z & E & _ & V). exists z. split; [exact E|]. rewrite V by (cbn; lia). cbn. lra.
Qed.
(* @ex *)
Lemma mlp_tower_is_local_ex_lem : exists y, mlp_tower 3 2 8 2 (Rmax 0) no_scale no_scale (fun _ => p33) x46 = Ok y /\ channels_last y [4; 6]%nat 3.
Proof. destruct (@mlp_tower_is_local_lem 3 2 8 2 (Rmax 0) (fun _ => p33) 1) as (F & _ & H). destruct (H [4; 6]%nat x46 eq_refl x46_cl) as (y & E & S & _). exists y. auto. Qed.
(* @ex *)
Lemma mlp_tower_moves_along_ex_lem : moves_along [4; 6]%nat 1 1 [4; 6]%nat 3 (mlp_tower 3 2 8 2 (Rmax 0) (scale_to_range 0 1) no_scale (fun _ => p33)) (mlp_tower 3 2 8 2 (Rmax 0) (scale_to_range 0 1) no_scale (fun _ => p33)).
Proof.
  apply (@mlp_tower_moves_along_lem 3 8 2 (Rmax 0) (scale_to_range 0 1) no_scale (fun _ => p33) 1 [4; 6]%nat); [intros [|[|i]] Hi; cbn in *; lia | | apply no_scale_plain]. apply (@scalings_are_plain_lem 2 1 0 1).
Qed.
