(** * C95: non-periodic convolutions *)
From Verif Require Import Prelude NdArr ArrayUtils_model Tiling_model Equations_model Towers_model SpecTile SpecTower TilingProofs TilingProps TowerProps MirrorConv_model NonPeriodicConv_model.
Set Implicit Arguments.
Local Open Scope Z_scope.

(** Correlation of [x] with the weights plus the bias, without any padding: the first tap is at the cell [stride * ix], the others after it *)
Definition inner_correlation (K : list nat) (cin rate stride : nat) (w : list Z -> R) (b : Z -> R) (x : arr R) (ix : list Z) (o : Z) : R :=
  (b o + asum (K ++ [cin]) (fun tx => get x (map (fun i => Z.of_nat stride * nth i ix 0 + Z.of_nat rate * nth i tx 0)%Z (seq 0 (length K)) ++ [nth (length K) tx 0%Z]) * w (tx ++ [o])))%R.
(** The kernel, with at least one tap per axis, fits into the array *)
Definition kernel_fits (rate stride : nat) (K N : list nat) : Prop :=
  length N = length K /\ (0 < rate)%nat /\ (0 < stride)%nat /\ forall i, (i < length K)%nat -> (0 < nth i K 0 /\ span rate (nth i K 0) <= nth i N 0)%nat.
(** Number of positions of the kernel *)
Definition positions (rate stride : nat) (K N : list nat) : list nat :=
  map (fun i => ((nth i N 0 - span rate (nth i K 0)) / stride + 1)%nat) (seq 0 (length K)).

(* @prop C95 A non-periodic convolution layer (any number of axes, kernel, dilation rate, stride and weights) on an array into which the kernel fits: the result has as many cells per axis as there are positions of the kernel inside the array; every entry is the correlation of the array with the weights at that position, plus the bias. *)
Lemma non_periodic_conv_exact_lem : forall p N K cin cout rate stride x, channels_last x N cin -> kernel_fits rate stride K N ->
  exists y, non_periodic_conv_general (length K) p cout K rate stride x = Ok y /\ channels_last y (positions rate stride K N) cout /\
    forall ix o, inb (positions rate stride K N ++ [cout]) (ix ++ [o]) -> get y (ix ++ [o]) = inner_correlation K cin rate stride (weights p) (bias p) x ix o.
Proof.
  intros p N K cin cout rate stride x Hx (HN & Hr & Hs & HK). unfold non_periodic_conv_general, unbatched. unfold channels_last in Hx.
  destruct (@hk_conv_windows p cin cout K rate stride Hr Hs (fun i Hi => proj1 (HK i Hi))) as (_ & H).
  assert (LE : length (map (effective_kernel rate) K) = length K) by apply map_length.
  assert (ES : forall i, (i < length K)%nat -> nth i (map (effective_kernel rate) K) 0%nat = span rate (nth i K 0%nat)).
  { intros i Hi. rewrite (nth_map' _ _ 0%nat 0%nat) by exact Hi. apply eff_span; [exact Hr | apply HK; exact Hi]. }
  destruct (H (mkarr (1%nat :: shp x) (fun ix => get x (tl ix))) 1%nat N) as (y & E & S & V).
  { cbn [shp]. rewrite Hx. reflexivity. } { lia. } { intros i Hi. rewrite LE in Hi. rewrite ES by exact Hi. apply HK. exact Hi. }
  rewrite E. cbn [bind]. eexists. split; [reflexivity|].
  assert (SP : tl (shp y) = positions rate stride K N ++ [cout]).
  { rewrite S. cbn [tl]. f_equal. unfold positions. rewrite LE. apply map_ext_in. intros i Hi. apply in_seq in Hi. rewrite ES by lia. reflexivity. }
  split; [exact SP|]. intros ix o Hin. cbn [get]. rewrite V.
  2:{ rewrite S in *. cbn [tl] in SP. rewrite SP. split; [lia | exact Hin]. }
  unfold inner_correlation. f_equal. apply asum_ext. intros tx Htx. cbn [get tl]. destruct (inb_last _ _ _ Htx) as (t & cc & -> & Ht & Hc). pose proof (inb_length _ _ Ht) as Lt.
  rewrite firstn_pre by exact Lt. rewrite nth_post by exact Lt. rewrite LE. do 3 f_equal. apply map_ext_in. intros i Hi. apply in_seq in Hi. rewrite nth_map_mul. rewrite (@app_nth1 _ t) by lia. reflexivity.
Qed.
(** Sum of three neighbours *)
Definition three_taps : params := mkparams (fun _ => 1%R) (fun _ => 0%R).
Definition five_cells : arr R := mkarr [5; 1]%nat (fun ix => IZR (nth 0 ix 0)).
(* @ex *)
Lemma non_periodic_conv_exact_ex_lem : exists y, non_periodic_conv_1d three_taps 1 [3%nat] 1 1 five_cells = Ok y /\ shp y = [3; 1]%nat /\ get y [1; 0] = 6%R.
Proof.
  destruct (@non_periodic_conv_exact_lem three_taps [5%nat] [3%nat] 1 1 1 1 five_cells eq_refl) as (y & E & S & V).
  { repeat split; try lia; destruct i as [|i]; cbn in *; try lia. }
  exists y. split; [exact E|]. split; [exact S|]. change [1; 0] with ([1] ++ [0]). rewrite V by (cbn; lia). unfold inner_correlation. cbn. lra.
Qed.

(** [w] is the part of [x] of shape [M] that starts at cell [s] *)
Definition part_of (x w : arr R) (s : list Z) (M : list nat) (c : nat) : Prop :=
  channels_last w M c /\ forall ix o, inb (M ++ [c]) (ix ++ [o]) -> get w (ix ++ [o]) = get x (map (fun i => nth i ix 0 + nth i s 0) (seq 0 (length M)) ++ [o]).

(* @prop C95 Non-periodic convolutions are local: on any part of an array into which the kernel still fits and which starts at a multiple of the stride, the layer returns the same part of what it returns for the whole array. *)
Lemma non_periodic_conv_local_lem : forall p N K cin cout rate stride x w s M y, channels_last x N cin -> kernel_fits rate stride K N -> kernel_fits rate stride K M ->
  length s = length K -> (forall i, (i < length K)%nat -> 0 <= nth i s 0 /\ Z.of_nat stride * nth i s 0 + Z.of_nat (nth i M 0%nat) <= Z.of_nat (nth i N 0%nat)) ->
  part_of x w (map (Z.mul (Z.of_nat stride)) s) M cin ->
  non_periodic_conv_general (length K) p cout K rate stride x = Ok y ->
  exists v, non_periodic_conv_general (length K) p cout K rate stride w = Ok v /\ part_of y v s (positions rate stride K M) cout.
Proof.
  intros p N K cin cout rate stride x w s M y Hx HN HM Ls Hs (Hw & Vw) Ey.
  destruct (@non_periodic_conv_exact_lem p N K cin cout rate stride x Hx HN) as (y' & E & S & V). rewrite E in Ey. injection Ey as ->.
  destruct (@non_periodic_conv_exact_lem p M K cin cout rate stride w Hw HM) as (v & Ev & Sv & Vv). exists v. split; [exact Ev|]. split; [exact Sv|].
  destruct HN as (LN & Hr & Hst & HKN). destruct HM as (LM & _ & _ & HKM).
  assert (LP : forall X, length (positions rate stride K X) = length K) by (intros X; unfold positions; rewrite map_length, seq_length; reflexivity).
  assert (NP : forall X i, (i < length K)%nat -> nth i (positions rate stride K X) 0%nat = ((nth i X 0 - span rate (nth i K 0)) / stride + 1)%nat).
  { intros X i Hi. unfold positions. rewrite (@nth_map_seq _ (fun i => ((nth i X 0 - span rate (nth i K 0)) / stride + 1)%nat)) by exact Hi. reflexivity. }
  intros ix o Hin. rewrite Vv by exact Hin. destruct (inb_last _ _ _ Hin) as (ix' & o' & Eq & Hix & Ho). apply app_inj_tail in Eq. destruct Eq as (<- & <-).
  pose proof (inb_length _ _ Hix) as Lix. rewrite LP in Lix. rewrite LP.
  assert (BI : forall i, (i < length K)%nat -> 0 <= nth i ix 0 /\ Z.of_nat stride * nth i ix 0 + Z.of_nat (span rate (nth i K 0%nat)) <= Z.of_nat (nth i M 0%nat)).
  { intros i Hi. pose proof (@inb_nth _ _ i Hix ltac:(rewrite LP; exact Hi)) as B. rewrite NP in B by exact Hi. specialize (HKM i Hi).
    pose proof (Nat.div_mod (nth i M 0 - span rate (nth i K 0))%nat stride ltac:(lia)) as D. set (q := ((nth i M 0 - span rate (nth i K 0)) / stride)%nat) in *. split; [lia|]. nia. }
  rewrite V.
  2:{ apply inb_app_intro; [|cbn; lia]. apply inb_intro; [rewrite map_length, seq_length, LP; reflexivity|]. intros i Hi. rewrite LP in Hi.
      rewrite (@nth_map_seq _ (fun i => nth i ix 0 + nth i s 0)) by exact Hi. rewrite NP by exact Hi. specialize (BI i Hi). specialize (Hs i Hi). specialize (HKN i Hi). split; [lia|].
      pose proof (Nat.div_mod (nth i N 0 - span rate (nth i K 0))%nat stride ltac:(lia)) as D. pose proof (Nat.mod_upper_bound (nth i N 0 - span rate (nth i K 0))%nat stride ltac:(lia)) as U. set (q := ((nth i N 0 - span rate (nth i K 0)) / stride)%nat) in *. nia. }
  unfold inner_correlation. f_equal. apply asum_ext. intros tx Htx. destruct (inb_last _ _ _ Htx) as (t & cc & -> & Ht & Hc). pose proof (inb_length _ _ Ht) as Lt. f_equal.
  rewrite !nth_post by exact Lt.
  assert (PT : forall i, (i < length K)%nat -> 0 <= nth i (t ++ [cc]) 0 <= Z.of_nat (nth i K 0%nat) - 1).
  { intros i Hi. rewrite app_nth1 by lia. pose proof (@inb_nth _ _ i Ht Hi). lia. }
  rewrite Vw.
  - do 2 f_equal. rewrite LM. apply map_ext_in. intros i Hi. apply in_seq in Hi. rewrite !(@nth_map_seq _ (fun i => Z.of_nat stride * nth i ix 0 + Z.of_nat rate * nth i (t ++ [cc]) 0)) by lia.
    rewrite (@nth_map_seq _ (fun i => nth i ix 0 + nth i s 0)) by lia. rewrite nth_map_mul. ring.
  - apply inb_app_intro; [|cbn; lia]. apply inb_intro; [rewrite map_length, seq_length; lia|]. intros i Hi. rewrite LM in Hi.
    rewrite (@nth_map_seq _ (fun i => Z.of_nat stride * nth i ix 0 + Z.of_nat rate * nth i (t ++ [cc]) 0)) by exact Hi. specialize (BI i Hi). specialize (PT i Hi). specialize (HKM i Hi). unfold span in BI. nia.
Qed.
(* @ex *)
Lemma non_periodic_conv_local_ex_lem : kernel_fits 1 1 [3%nat] [5%nat] /\ kernel_fits 1 1 [3%nat] [4%nat] /\
  part_of five_cells (mkarr [4; 1]%nat (fun ix => (IZR (nth 0 ix 0%Z) + 1)%R)) (map (Z.mul 1) [1]) [4%nat] 1.
Proof.
  split; [|split].
  - repeat split; try lia; destruct i as [|i]; cbn in *; try lia.
  - repeat split; try lia; destruct i as [|i]; cbn in *; try lia.
  - split; [reflexivity|]. intros ix o H. destruct (inb_last _ _ _ H) as (i & c & E & Hi & Hc). apply app_inj_tail in E. destruct E as (<- & <-). destruct ix as [|a [|b l]]; cbn in Hi; try tauto. cbn. rewrite plus_IZR. reflexivity.
Qed.
