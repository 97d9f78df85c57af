(** * Convolution layers and towers: what they compute and how they respect the grid *)
From Verif Require Import Prelude NdArr ArrayUtils_model Tiling_model Equations_model Towers_model SpecTile SpecTower TilingProofs TilingProps.
Set Implicit Arguments.
Local Open Scope Z_scope.

(** ** one layer *)
Lemma eff_span rate k : (0 < rate)%nat -> (0 < k)%nat -> effective_kernel rate k = span rate k.
Proof. intros Hr Hk. unfold effective_kernel, span. destruct rate as [|r]; [lia|]. destruct k as [|k]; [lia|]. cbn [Nat.sub]. rewrite !Nat.sub_0_r. lia. Qed.
Lemma nth_map_mul s ix i : nth i (map (Z.mul s) ix) 0 = s * nth i ix 0.
Proof. replace 0 with (s * 0) at 1 by ring. apply map_nth. Qed.
Lemma ceil_last n s : (0 < n)%nat -> (0 < s)%nat -> (((n - 1) / s + 1 = (n + s - 1) / s)%nat).
Proof. intros Hn Hs. replace (n + s - 1)%nat with ((n - 1) + 1 * s)%nat by lia. rewrite Nat.div_add by lia. reflexivity. Qed.

Lemma strided_conv A (conv : arr A -> result (arr A)) (E : list nat) (s cin cout : nat) (Phi : (list Z -> Z -> A) -> Z -> A) (x : arr A) N L m P : (0 < s)%nat ->
  (forall f g o, (forall t cc, inb E t -> 0 <= cc < Z.of_nat cin -> f t cc = g t cc) -> 0 <= o < Z.of_nat cout -> Phi f o = Phi g o) ->
  (forall x B M, shp x = B :: M ++ [cin] -> length M = length E -> (forall i, (i < length E)%nat -> (nth i E 0 <= nth i M 0)%nat) ->
     exists y, conv x = Ok y /\ shp y = B :: map (fun i => ((nth i M 0 - nth i E 0) / s + 1)%nat) (seq 0 (length E)) ++ [cout] /\
       forall k j o, inb (shp y) (k :: j ++ [o]) ->
         get y (k :: j ++ [o]) = Phi (fun t cc => get x (k :: map (fun i => Z.of_nat s * nth i j 0 + nth i t 0) (seq 0 (length E)) ++ [cc])) o) ->
  channels_last x N cin -> tiled_by N L m ->
  length E = length L -> length P = length L -> (forall i, (i < length L)%nat -> (fst (nth i P (0, 0)) + snd (nth i P (0, 0)) + 1 = nth i E 0)%nat) ->
  (forall i, (i < length L)%nat -> (fst (nth i P (0, 0)) <= nth i m 0 /\ snd (nth i P (0, 0)) <= nth i m 0)%nat) -> (forall i, (i < length N)%nat -> (0 < nth i N 0)%nat) ->
  (forall i, (i < length L)%nat -> nth i L 0%nat = 1%nat \/ Nat.divide s (nth i m 0%nat)) ->
  exists y, apply_convolution conv x (Some L) P = Ok y /\ channels_last y (map (fun n => ((n + s - 1) / s)%nat) N) cout /\
    forall ix o, inb (map (fun n => ((n + s - 1) / s)%nat) N ++ [cout]) (ix ++ [o]) -> get y (ix ++ [o]) = Phi (fun t cc => get x (cell_at N (map fst P) (map (Z.mul (Z.of_nat s)) ix) t ++ [cc])) o.
Proof.
  intros Hs Hext Hconv Hx HT HK HP Hsum HB HN HD. unfold apply_convolution. pose proof (tb_LN HT) as LN. pose proof (tb_Lm HT) as Lm.
  pose proof (@s2b_calc N L m HT A x cin Hx) as Es. set (t := mkarr _ _) in Es. rewrite Es. cbn [bind]. pose proof (@padded_start A x cin N L m HT t Hx Es) as R.
  destruct (@halo_spec A x t N L m cin P HT R HP HB) as (t' & E' & S' & V'). rewrite E'. cbn [bind].
  assert (Hm : forall i, (i < length L)%nat -> (0 < nth i m 0)%nat).
  { intros i Hi. assert (0 < nth i N 0)%nat by (apply HN; lia). rewrite (@tb_N N L m HT i Hi) in H. nia. }
  destruct (Hconv t' _ _ S') as (y & Ey & Sy & Vy).
  { rewrite padM_length. auto. }
  { intros i Hi. rewrite padM_nth by lia. specialize (Hsum i ltac:(lia)). specialize (Hm i ltac:(lia)). lia. }
  rewrite Ey. cbn [bind].
  set (m' := map (fun n => ((n + s - 1) / s)%nat) m). set (N' := map (fun n => ((n + s - 1) / s)%nat) N) in *.
  assert (Em : map (fun i => ((nth i (padM L m (fun i => fst (nth i P (0, 0)%nat)) (fun i => snd (nth i P (0, 0)%nat))) 0 - nth i E 0) / s + 1)%nat) (seq 0 (length E)) = m').
  { apply (list_ext_nth 0%nat); [unfold m'; rewrite !map_length, seq_length; lia|]. intros i Hi. rewrite map_length, seq_length in Hi.
    rewrite (@nth_map_seq _ (fun i => ((nth i (padM L m (fun i => fst (nth i P (0, 0)%nat)) (fun i => snd (nth i P (0, 0)%nat))) 0 - nth i E 0) / s + 1)%nat)) by exact Hi.
    unfold m'. rewrite (nth_map' _ _ 0%nat 0%nat) by lia. rewrite padM_nth by lia. specialize (Hsum i ltac:(lia)). specialize (Hm i ltac:(lia)).
    rewrite <- ceil_last by lia. do 2 f_equal. lia. }
  rewrite Em in Sy.
  assert (EN : forall i, (i < length L)%nat -> nth i N' 0%nat = (nth i L 0 * nth i m' 0)%nat).
  { intros i Hi. unfold N', m'. rewrite !(nth_map' _ _ 0%nat 0%nat) by lia. rewrite (@tb_N N L m HT i Hi). destruct (HD i Hi) as [-> | (q & Hq)]; [rewrite !Nat.mul_1_l; reflexivity|].
    rewrite Hq. rewrite Nat.mul_assoc. assert (Hc : forall a, ((a * s + s - 1) / s = a)%nat).
    { intros a. replace (a * s + s - 1)%nat with ((s - 1) + a * s)%nat by lia. rewrite Nat.div_add by lia. rewrite Nat.div_small by lia. lia. }
    rewrite !Hc. reflexivity. }
  assert (HT' : tiled_by N' L m').
  { destruct HT as (H1 & H2 & H3 & H4). repeat split; try lia; try (unfold N', m'; rewrite map_length; lia); [apply H4; assumption | apply EN; assumption]. }
  rewrite (@b2s_calc N' L m' HT' A y cout Sy). eexists; split; [reflexivity|]. split; [reflexivity|]. cbn [get shp]. intros ix o Hix. destruct (inb_last _ _ _ Hix) as (j & cc & Ej & Hj & Hc). apply app_inj_tail in Ej. destruct Ej as (<- & <-).
  pose proof (inb_length _ _ Hj) as Lj. assert (LN' : length N' = length L) by (apply HT'). rewrite LN' in Lj. rewrite firstn_pre by exact Lj. rewrite nth_post by exact Lj. destruct (@div_inb N' L m' HT' ix Hj) as (D1 & D2 & D3).
  rewrite Vy.
  2:{ rewrite Sy. cbn [inb]. split; [apply tflat_range; exact D1|]. apply inb_app_intro; [exact D2|]. cbn [inb]. auto. }
  apply Hext; [|exact Hc]. intros tx cc Htx Hcc. pose proof (inb_length _ _ Htx) as Lt. assert (Lm' : length m' = length L) by (apply HT').
  assert (Hup : forall i, (i < length L)%nat -> Z.of_nat s * nth i (mod_ix m' ix) 0 <= Z.of_nat (nth i m 0%nat) - 1).
  { intros i Hi. pose proof (@inb_nth _ _ i D2 ltac:(lia)) as Hq. assert (Em1 : nth i m' 0%nat = ((nth i m 0 - 1) / s + 1)%nat) by (unfold m'; rewrite (nth_map' _ _ 0%nat 0%nat) by lia; specialize (Hm i Hi); rewrite <- ceil_last by lia; reflexivity). rewrite Em1 in Hq.
    specialize (Hm i Hi). pose proof (Nat.div_mod (nth i m 0%nat - 1) s ltac:(lia)) as DM. set (q := ((nth i m 0 - 1) / s)%nat) in *. assert (Z.of_nat s * nth i (mod_ix m' ix) 0 <= Z.of_nat s * Z.of_nat q) by (apply Z.mul_le_mono_nonneg_l; lia). lia. }
  assert (Hwin : inb (padM L m (fun i => fst (nth i P (0, 0)%nat)) (fun i => snd (nth i P (0, 0)%nat))) (map (fun i => Z.of_nat s * nth i (mod_ix m' ix) 0 + nth i tx 0) (seq 0 (length E)))).
  { apply inb_intro; [rewrite map_length, seq_length, padM_length; exact HK|]. intros i Hi. rewrite padM_length in Hi. rewrite padM_nth by exact Hi. rewrite (@nth_map_seq _ (fun i => Z.of_nat s * nth i (mod_ix m' ix) 0 + nth i tx 0)) by lia.
    specialize (Hup i Hi). pose proof (@inb_nth _ _ i D2 ltac:(lia)). pose proof (@inb_nth _ _ i Htx ltac:(lia)). specialize (Hsum i ltac:(lia)). nia. }
  rewrite V' by auto. do 2 f_equal. unfold cellF, cell_at. rewrite LN. apply map_ext_in. intros i Hi. apply in_seq in Hi. rewrite (@nth_map_seq _ (fun i => Z.of_nat s * nth i (mod_ix m' ix) 0 + nth i tx 0)) by lia.
  rewrite (nth_map' _ _ (0, 0)%nat 0%nat) by lia. f_equal. rewrite nth_map_mul. rewrite div_ix_nth, mod_ix_nth by lia.
  pose proof (@inb_nth _ _ i D2 ltac:(lia)) as Hm'. rewrite mod_ix_nth in Hm' by lia. pose proof (@inb_nth _ _ i D1 ltac:(lia)) as HL'. rewrite div_ix_nth in HL' by lia.
  pose proof (Z.div_mod (nth i ix 0) (Z.of_nat (nth i m' 0%nat)) ltac:(lia)) as DM. set (q := nth i ix 0 / Z.of_nat (nth i m' 0%nat)) in *. set (r := nth i ix 0 mod Z.of_nat (nth i m' 0%nat)) in *. rewrite DM.
  destruct (HD i ltac:(lia)) as [E1 | (qq & Hq)].
  - assert (q = 0) by lia. rewrite H. ring.
  - assert (Hmm : Z.of_nat (nth i m 0%nat) = Z.of_nat s * Z.of_nat (nth i m' 0%nat)).
    { unfold m'. rewrite (nth_map' _ _ 0%nat 0%nat) by lia. rewrite Hq. replace (qq * s + s - 1)%nat with ((s - 1) + qq * s)%nat by lia. rewrite Nat.div_add by lia. rewrite Nat.div_small by lia. lia. }
    rewrite Hmm. ring.
Qed.

Lemma hk_conv_windows p cin cout K rate stride : (0 < rate)%nat -> (0 < stride)%nat -> (forall i, (i < length K)%nat -> (0 < nth i K 0)%nat) ->
  let E := map (effective_kernel rate) K in
  let Phi := fun (f : list Z -> Z -> R) o => (bias p o + asum (K ++ [cin]) (fun tx => f (map (Z.mul (Z.of_nat rate)) (firstn (length K) tx)) (nth (length K) tx 0%Z) * weights p (tx ++ [o])))%R in
  (forall f g o, (forall t cc, inb E t -> 0 <= cc < Z.of_nat cin -> f t cc = g t cc) -> 0 <= o < Z.of_nat cout -> Phi f o = Phi g o) /\
  (forall x B M, shp x = B :: M ++ [cin] -> length M = length E -> (forall i, (i < length E)%nat -> (nth i E 0 <= nth i M 0)%nat) ->
     exists y, hk_conv (length K) p cout K rate stride x = Ok y /\ shp y = B :: map (fun i => ((nth i M 0 - nth i E 0) / stride + 1)%nat) (seq 0 (length E)) ++ [cout] /\
       forall k j o, inb (shp y) (k :: j ++ [o]) ->
         get y (k :: j ++ [o]) = Phi (fun t cc => get x (k :: map (fun i => Z.of_nat stride * nth i j 0 + nth i t 0) (seq 0 (length E)) ++ [cc])) o).
Proof.
  intros Hr Hs HK E Phi. assert (LE : length E = length K) by (unfold E; apply map_length). split.
  - intros f g o H _. unfold Phi. f_equal. apply asum_ext. intros tx Htx. destruct (inb_last _ _ _ Htx) as (t & cc & -> & Ht & Hc). pose proof (inb_length _ _ Ht) as Lt. rewrite firstn_pre by exact Lt. rewrite nth_post by exact Lt. rewrite H; [reflexivity | | exact Hc].
    apply inb_intro; [rewrite map_length; lia|]. intros i Hi. rewrite LE in Hi. rewrite nth_map_mul. pose proof (@inb_nth _ _ i Ht ltac:(lia)) as Ri. unfold E. rewrite (nth_map' _ _ 0%nat 0%nat) by exact Hi. rewrite eff_span by (try exact Hr; apply HK; exact Hi). unfold span. specialize (HK i Hi). nia.
  - intros x B M Hx HM HKM. unfold hk_conv, ndim. rewrite Nat.eqb_refl, Hx. cbn [negb length]. rewrite app_length. cbn [length]. rewrite HM, LE. replace (S (length K + 1)) with (length K + 2)%nat by lia. rewrite Nat.eqb_refl. cbn [negb orb].
    replace (rate =? 0)%nat with false by (symmetry; apply Nat.eqb_neq; lia). replace (stride =? 0)%nat with false by (symmetry; apply Nat.eqb_neq; lia). cbn [orb].
    replace (existsb (Nat.eqb 0) K) with false.
    2:{ symmetry. apply not_true_is_false. intros H. apply existsb_exists in H. destruct H as (k & Hin & Ek). apply Nat.eqb_eq in Ek. destruct (In_nth _ _ 0%nat Hin) as (i & Hi & En). specialize (HK i Hi). lia. }
    cbn [nth tl]. assert (HM' : length M = length K) by lia. rewrite (@nth_post _ M cin [] _ 0%nat HM'). rewrite (@firstn_pre _ M [cin] _ HM'). fold E.
    replace (existsb _ (combine E M)) with false.
    2:{ symmetry. apply not_true_is_false. intros H. apply existsb_exists in H. destruct H as ((k, n) & Hin & Ek). cbn [fst snd] in Ek. apply Nat.ltb_lt in Ek. destruct (In_nth _ _ (0, 0)%nat Hin) as (i & Hi & En). rewrite combine_length in Hi. rewrite combine_nth in En by auto. injection En as <- <-. specialize (HKM i ltac:(lia)). lia. }
    eexists; split; [reflexivity|]. cbn [shp get]. split.
    + do 2 f_equal. apply (list_ext_nth 0%nat); [rewrite !map_length, combine_length, seq_length; lia|]. intros i Hi. rewrite map_length, combine_length in Hi. rewrite (nth_map' _ _ (0, 0)%nat 0%nat) by (rewrite combine_length; exact Hi). rewrite combine_nth by auto. cbn [fst snd].
      rewrite (@nth_map_seq _ (fun i => ((nth i M 0 - nth i E 0) / stride + 1)%nat)) by lia. reflexivity.
    + intros k j o Hin. destruct (inb_batch _ _ _ _ Hin) as (k' & j' & o' & Ej & _ & Hj & _). injection Ej as <- Ej. apply app_inj_tail in Ej. destruct Ej as (<- & <-). pose proof (inb_length _ _ Hj) as Lj. rewrite map_length, combine_length in Lj.
      assert (Lj' : length j = length K) by lia. cbv zeta. cbn [nth tl]. rewrite (@firstn_pre _ j [o] _ Lj'), (@nth_post _ j o [] _ 0 Lj'). unfold Phi. f_equal.
      apply asum_ext. intros tx Htx. destruct (inb_last _ _ _ Htx) as (t & cc & -> & Ht & Hc). pose proof (inb_length _ _ Ht) as Lt. rewrite firstn_pre by exact Lt. rewrite nth_post by exact Lt.
      rewrite add_ix_map by (rewrite !map_length; lia). unfold E. rewrite !map_length, ?Lt. do 3 f_equal. f_equal. apply map_ext_in. intros i Hi. rewrite !nth_map_mul. reflexivity.
Qed.
Lemma half_span_le rate k : (span rate k - span rate k / 2 - 1 <= span rate k / 2)%nat /\ (span rate k / 2 + (span rate k - span rate k / 2 - 1) + 1 = span rate k)%nat.
Proof. unfold span. set (e := (rate * (k - 1) + 1)%nat). assert (0 < e)%nat by (unfold e; rewrite Nat.add_1_r; apply Nat.lt_0_succ). clearbody e. pose proof (Nat.div_mod e 2 ltac:(lia)). pose proof (Nat.mod_upper_bound e 2 ltac:(lia)). lia. Qed.

(* @prop C72 A periodic convolution layer computes the exact circular correlation of its input with its weights, with taps "rate" cells apart and centred with the larger half before the centre, at every "stride"-th cell, plus the bias: with any layout of tiles that are wide enough, as long as the stride divides the tiles of every axis that is cut. *)
Lemma conv_layer_exact_lem : forall p N K cin cout rate stride layout m x, channels_last x N cin -> tiled_by N (layout_for N layout) m -> tile_holds rate K m -> (0 < stride)%nat ->
  (forall i, (i < length N)%nat -> nth i (layout_for N layout) 0%nat = 1%nat \/ Nat.divide stride (nth i m 0%nat)) ->
  exists y, periodic_convolution_module layout p cout K (length N) rate stride x = Ok y /\
    channels_last y (map (fun n => ((n + stride - 1) / stride)%nat) N) cout /\
    forall ix o, inb (map (fun n => ((n + stride - 1) / stride)%nat) N ++ [cout]) (ix ++ [o]) -> get y (ix ++ [o]) = dilated_correlation N K cin rate stride (weights p) (bias p) x ix o.
Proof.
  intros p N K cin cout rate stride layout m x Hx HT (LK & Hr & Hm) Hs HD. pose proof (tb_LN HT) as LN. pose proof (tb_Lm HT) as Lm. pose proof HT as ((H1 & H3) & _).
  unfold periodic_convolution_module. replace (1 <=? length N)%nat with true by (symmetry; apply Nat.leb_le; lia). replace (length N <=? 3)%nat with true by (symmetry; apply Nat.leb_le; lia). cbn [andb negb]. unfold periodic_conv_general.
  assert (HKp : forall i, (i < length K)%nat -> (0 < nth i K 0)%nat) by (intros i Hi; apply Hm; lia).
  set (P := conv_padding rate K). assert (LP : length P = length N) by (unfold P, conv_padding; rewrite map_length; lia).
  assert (EP : forall i, (i < length N)%nat -> nth i P (0, 0)%nat = (span rate (nth i K 0%nat) / 2, span rate (nth i K 0%nat) - span rate (nth i K 0%nat) / 2 - 1)%nat).
  { intros i Hi. unfold P, conv_padding. rewrite (nth_map' _ _ 0%nat (0, 0)%nat) by lia. rewrite eff_span by (try exact Hr; apply HKp; lia). reflexivity. }
  rewrite (@apply_opt R _ x N) by exact LP. change (tiles_of N layout) with (layout_for N layout). set (L := layout_for N layout) in *.
  destruct (@hk_conv_windows p cin cout K rate stride Hr Hs HKp) as (W1 & W2). replace (length N) with (length K) by lia.
  assert (HN : forall i, (i < length N)%nat -> (0 < nth i N 0)%nat).
  { intros i Hi. rewrite (@tb_N N L m HT i ltac:(lia)). pose proof (@tb_L N L m HT i ltac:(lia)). specialize (Hm i ltac:(lia)). nia. }
  destruct (@strided_conv R _ _ stride cin cout _ x N L m P Hs W1 W2 Hx HT) as (y & Ey & Sy & Vy).
  - rewrite map_length. lia.
  - lia.
  - intros i Hi. rewrite EP by lia. cbn [fst snd]. rewrite (nth_map' _ _ 0%nat 0%nat) by lia. rewrite eff_span by (try exact Hr; apply HKp; lia). apply half_span_le.
  - intros i Hi. rewrite EP by lia. cbn [fst snd]. pose proof (half_span_le rate (nth i K 0%nat)) as (A & _). specialize (Hm i ltac:(lia)). lia.
  - exact HN.
  - intros i Hi. apply HD. lia.
  - exists y. split; [exact Ey|]. split; [exact Sy|]. intros ix o Hin. rewrite Vy by exact Hin. unfold dilated_correlation.
    replace (map fst P) with (map (fun k => (span rate k / 2)%nat) K); [reflexivity|]. unfold P, conv_padding. rewrite map_map. cbn [fst]. apply map_ext_in. intros k Hk. destruct (In_nth _ _ 0%nat Hk) as (i & Hi & <-). rewrite eff_span by (try exact Hr; apply HKp; lia). reflexivity.
Qed.

(** ** towers *)
Lemma cell_at_len N pad ix t : length (cell_at N pad ix t) = length N.
Proof. unfold cell_at. rewrite map_length, seq_length. reflexivity. Qed.
Lemma cell_at_nth N pad ix t i : (i < length N)%nat -> nth i (cell_at N pad ix t) 0 = (nth i ix 0 + nth i t 0 - Z.of_nat (nth i pad 0%nat)) mod Z.of_nat (nth i N 0%nat).
Proof. intros Hi. unfold cell_at. rewrite (@nth_map_seq _ (fun i => (nth i ix 0 + nth i t 0 - Z.of_nat (nth i pad 0%nat)) mod Z.of_nat (nth i N 0%nat))) by exact Hi. reflexivity. Qed.
Lemma cell_at_inb N pad ix t : (forall i, (i < length N)%nat -> (0 < nth i N 0)%nat) -> inb N (cell_at N pad ix t).
Proof. intros HN. apply inb_intro; [apply cell_at_len|]. intros i Hi. rewrite cell_at_nth by exact Hi. apply Z.mod_pos_bound. specialize (HN i Hi). lia. Qed.
Lemma nth_nil_nat i : nth i (@nil nat) 0%nat = 0%nat. Proof. destruct i; reflexivity. Qed.
Lemma nth_map_muln s l i : nth i (map (Nat.mul s) l) 0%nat = (s * nth i l 0)%nat.
Proof. replace 0%nat with (s * 0)%nat at 1 by lia. apply map_nth. Qed.
Lemma move_cell N N' s pad ix k t : N = map (Nat.mul s) N' -> (0 < s)%nat -> (forall i, (i < length N)%nat -> (0 < nth i N 0)%nat) ->
  cell_at N [] (cell_at N pad (map (Z.mul (Z.of_nat s)) ix) t) (map (Z.mul (Z.of_nat s)) k) = cell_at N pad (map (Z.mul (Z.of_nat s)) (cell_at N' [] ix k)) t.
Proof.
  intros EN Hs HN. apply (list_ext_nth 0); [rewrite !cell_at_len; reflexivity|]. intros i Hi. rewrite cell_at_len in Hi. assert (Hi' : (i < length N')%nat) by (rewrite EN, map_length in Hi; exact Hi).
  rewrite !cell_at_nth by exact Hi. rewrite !nth_map_mul. rewrite cell_at_nth by exact Hi'. rewrite !nth_nil_nat. rewrite !Z.sub_0_r.
  assert (E : Z.of_nat (nth i N 0%nat) = Z.of_nat s * Z.of_nat (nth i N' 0%nat)) by (rewrite EN, nth_map_muln; lia). specialize (HN i Hi). assert (0 < Z.of_nat (nth i N' 0%nat)) by nia.
  rewrite <- Z.mul_mod_distr_l by lia. rewrite <- E. rewrite Z.add_mod_idemp_l by lia. set (M := Z.of_nat (nth i N 0%nat)) in *.
  replace (Z.of_nat s * (nth i ix 0 + nth i k 0)) with (Z.of_nat s * nth i ix 0 + Z.of_nat s * nth i k 0) by ring.
  replace ((Z.of_nat s * nth i ix 0 + Z.of_nat s * nth i k 0) mod M + nth i t 0 - Z.of_nat (nth i pad 0%nat)) with ((Z.of_nat s * nth i ix 0 + Z.of_nat s * nth i k 0) mod M + (nth i t 0 - Z.of_nat (nth i pad 0%nat))) by ring.
  rewrite Z.add_mod_idemp_l by lia. f_equal. ring.
Qed.
Lemma ceil_mult N N' s : (0 < s)%nat -> N = map (Nat.mul s) N' -> map (fun n => ((n + s - 1) / s)%nat) N = N'.
Proof.
  intros Hs ->. rewrite map_map. rewrite <- (map_id N') at 2. apply map_ext. intros n. replace (s * n + s - 1)%nat with ((s - 1) + n * s)%nat by lia. rewrite Nat.div_add by lia. rewrite Nat.div_small by lia. reflexivity.
Qed.
Lemma tiled_pos N L m K rate : tiled_by N L m -> tile_holds rate K m -> forall i, (i < length N)%nat -> (0 < nth i N 0)%nat.
Proof. intros HT (_ & _ & Hm) i Hi. pose proof (tb_LN HT). pose proof (tb_Lm HT). rewrite (@tb_N N L m HT i ltac:(lia)). pose proof (@tb_L N L m HT i ltac:(lia)). specialize (Hm i ltac:(lia)). nia. Qed.
Lemma conv_moves p cin cout K rate s N N' layout1 layout2 m1 m2 n1 n2 : tiled_by N (layout_for N layout1) m1 -> tile_holds rate K m1 -> m1 = map (Nat.mul s) n1 ->
  tiled_by N (layout_for N layout2) m2 -> tile_holds rate K m2 -> m2 = map (Nat.mul s) n2 -> (0 < s)%nat -> N = map (Nat.mul s) N' ->
  moves_along N cin s N' cout (periodic_convolution_module layout1 p cout K (length N) rate s) (periodic_convolution_module layout2 p cout K (length N) rate s).
Proof.
  intros T1 H1 E1 T2 H2 E2 Hs EN k x1 x2 Hk (S1 & S2 & V).
  assert (DV : forall m n, m = map (Nat.mul s) n -> forall i, Nat.divide s (nth i m 0%nat)) by (intros m n -> i; rewrite nth_map_muln; exists (nth i n 0%nat); lia).
  destruct (@conv_layer_exact_lem p N K cin cout rate s layout1 m1 x1 S1 T1 H1 Hs) as (y1 & Ey1 & Sy1 & V1); [intros; right; eapply DV; eassumption|].
  destruct (@conv_layer_exact_lem p N K cin cout rate s layout2 m2 x2 S2 T2 H2 Hs) as (y2 & Ey2 & Sy2 & V2); [intros; right; eapply DV; eassumption|].
  rewrite (@ceil_mult N N' s Hs EN) in *. exists y1, y2. split; [exact Ey1|]. split; [exact Ey2|]. split; [exact Sy1|]. split; [exact Sy2|]. intros ix o Hin.
  pose proof (@tiled_pos _ _ _ _ _ T1 H1) as HN.
  assert (HN' : forall i, (i < length N')%nat -> (0 < nth i N' 0)%nat). { intros i Hi. specialize (HN i). rewrite EN, map_length, nth_map_muln in HN. specialize (HN Hi). nia. }
  rewrite V2 by exact Hin. destruct (inb_last _ _ _ Hin) as (j & cc & Ej & Hj & Hc). apply app_inj_tail in Ej. destruct Ej as (<- & <-).
  rewrite V1 by (apply inb_app_intro; [apply cell_at_inb; exact HN' | cbn [inb]; auto]).
  unfold dilated_correlation. f_equal. apply asum_ext. intros tx Htx. destruct (inb_last _ _ _ Htx) as (t & c & -> & Ht & Hcc). pose proof (inb_length _ _ Ht) as Lt. rewrite firstn_pre by exact Lt. rewrite nth_post by exact Lt. f_equal.
  rewrite V by (apply inb_app_intro; [apply cell_at_inb; exact HN | cbn [inb]; auto]). rewrite (@move_cell N N' s) by assumption. reflexivity.
Qed.
Lemma amap_moved f k N c x y : moved k N c x y -> moved k N c (amap f x) (amap f y).
Proof. intros (S1 & S2 & V). split; [exact S1|]. split; [exact S2|]. intros ix o H. cbn [amap get]. rewrite V by exact H. reflexivity. Qed.
Lemma moves_compose N cin s N1 c1 t N2 c2 S1 S2 T1 T2 : moves_along N cin s N1 c1 S1 S2 -> moves_along N1 c1 t N2 c2 T1 T2 -> length N1 = length N ->
  moves_along N cin (s * t) N2 c2 (fun x => let* y := S1 x in T1 y) (fun x => let* y := S2 x in T2 y).
Proof.
  intros HS HT HL k x1 x2 Hk H.
  destruct (HS (map (Z.mul (Z.of_nat t)) k) x1 x2) as (y1 & y2 & E1 & E2 & Hy); [rewrite map_length; exact Hk | |].
  - rewrite map_map. replace (map (fun x => Z.of_nat s * (Z.of_nat t * x)) k) with (map (Z.mul (Z.of_nat (s * t))) k); [exact H|]. apply map_ext. intros a. rewrite Nat2Z.inj_mul. ring.
  - rewrite E1, E2. cbn [bind]. apply HT; [congruence | exact Hy].
Qed.
Lemma tiled_smaller N N1 L m n s : (0 < s)%nat -> tiled_by N L m -> m = map (Nat.mul s) n -> N = map (Nat.mul s) N1 -> tiled_by N1 L n.
Proof.
  intros Hs (H1 & H2 & H3 & H4) -> ->. rewrite map_length in H2, H3. repeat split; try lia; try (apply H4; assumption).
  destruct (H4 i H) as (_ & E). rewrite !nth_map_muln in E. nia.
Qed.
Lemma total_cons l ls : total_stride (l :: ls) = (snd (snd l) * total_stride ls)%nat. Proof. reflexivity. Qed.
Lemma layout_len N N1 layout : length N = length N1 -> layout_for N layout = layout_for N1 layout.
Proof. intros H. unfold layout_for. rewrite H. reflexivity. Qed.
Lemma hidden_moves d sigma ps : forall channels layers i cin N N' layout1 layout2 m1 m2 out cout, length N = d -> length channels = length layers ->
  tiled_by N (layout_for N layout1) m1 -> tiles_hold m1 (layers ++ [out]) -> tiled_by N (layout_for N layout2) m2 -> tiles_hold m2 (layers ++ [out]) -> N = map (Nat.mul (total_stride (layers ++ [out]))) N' ->
  moves_along N cin (total_stride (layers ++ [out])) N' cout
    (fun x => let* y := run_hidden (periodic_convolution_module layout1) d sigma ps i (combine channels layers) x in periodic_convolution_module layout1 (ps (i + length layers)%nat) cout (fst out) d (fst (snd out)) (snd (snd out)) y)
    (fun x => let* y := run_hidden (periodic_convolution_module layout2) d sigma ps i (combine channels layers) x in periodic_convolution_module layout2 (ps (i + length layers)%nat) cout (fst out) d (fst (snd out)) (snd (snd out)) y).
Proof.
  induction channels as [|c channels IH]; intros layers i cin N N' layout1 layout2 m1 m2 out cout Hd HL T1 H1 T2 H2 EN; destruct layers as [|(K, (rate, s)) layers]; try discriminate HL.
  - cbn [combine run_hidden bind app length] in *. destruct out as (K, (rate, s)). cbn [fst snd tiles_hold] in *. destruct H1 as (H1 & Hs & n1 & En1 & _). destruct H2 as (H2 & _ & n2 & En2 & _).
    assert (ET : total_stride [(K, (rate, s))] = s) by (unfold total_stride; cbn; lia). rewrite ET in *. rewrite <- Hd.
    eapply conv_moves; eassumption.
  - cbn [combine run_hidden app length] in *. injection HL as HL. cbn [tiles_hold] in H1, H2. destruct H1 as (H1 & Hs & n1 & En1 & R1). destruct H2 as (H2 & _ & n2 & En2 & R2). rewrite total_cons in *. cbn [snd] in *.
    set (T := total_stride (layers ++ [out])) in *. set (N1 := map (Nat.mul T) N').
    assert (EN1 : N = map (Nat.mul s) N1) by (unfold N1; rewrite map_map, EN; apply map_ext; intros a; ring).
    assert (LN1 : length N1 = length N) by (rewrite EN1, map_length; reflexivity).
    pose proof (@conv_moves (ps i) cin c K rate s N N1 layout1 layout2 m1 m2 n1 n2 T1 H1 En1 T2 H2 En2 Hs EN1) as C. rewrite Hd in C.
    pose proof (@IH layers (S i) c N1 N' layout1 layout2 n1 n2 out cout ltac:(congruence) HL) as C2. fold T in C2. specialize (C2 ltac:(rewrite (@layout_len N1 N) by exact LN1; eapply tiled_smaller; eassumption) R1 ltac:(rewrite (@layout_len N1 N) by exact LN1; eapply tiled_smaller; eassumption) R2 eq_refl).
    intros k x1 x2 Hk Hx. destruct (C (map (Z.mul (Z.of_nat T)) k) x1 x2) as (y1 & y2 & E1 & E2 & Hy); [rewrite map_length; exact Hk | |].
    { rewrite map_map. replace (map (fun x => Z.of_nat s * (Z.of_nat T * x)) k) with (map (Z.mul (Z.of_nat (s * T))) k); [exact Hx|]. apply map_ext. intros a. rewrite Nat2Z.inj_mul. ring. }
    rewrite E1, E2. cbn [bind]. destruct (C2 k (amap sigma y1) (amap sigma y2)) as (z1 & z2 & F1 & F2 & Hz); [congruence | apply amap_moved; exact Hy |].
    replace (i + S (length layers))%nat with (S i + length layers)%nat by lia. exists z1, z2. auto.
Qed.
Lemma mul_one k : map (Z.mul (Z.of_nat 1)) k = k.
Proof. rewrite <- (map_id k) at 2. apply map_ext. intros a. lia. Qed.

(* @prop C72 A convolutional tower moves along with its input: if the input is moved by a multiple of the total stride, the output is the same output moved by that many coarse cells, whatever the weights, the nonlinearity, the number of layers, their kernels, rates and strides; and two layouts of tiles that are wide enough give the same output. *)
Lemma tower_moves_along_lem : forall cout d channels kernels rates strides outK outrate outstride nonlinearity inputs_scale output_scale ps N N' cin layout1 layout2 m1 m2,
  let layers := tower_layers (length channels) kernels rates strides (outK, (outrate, outstride)) in
  length N = d -> one_per_layer (length channels) kernels rates strides ->
  tiled_by N (layout_for N layout1) m1 -> tiles_hold m1 layers -> tiled_by N (layout_for N layout2) m2 -> tiles_hold m2 layers -> N = map (Nat.mul (total_stride layers)) N' ->
  plain_scaling d (fun x => inputs_scale x (seq 0 d)) -> plain_scaling d (fun x => output_scale x (seq 0 d)) ->
  exists T1 T2,
    forward_flex_tower cout d channels kernels rates strides outK outrate outstride (periodic_convolution_module layout1) nonlinearity inputs_scale output_scale ps = Ok T1 /\
    forward_flex_tower cout d channels kernels rates strides outK outrate outstride (periodic_convolution_module layout2) nonlinearity inputs_scale output_scale ps = Ok T2 /\
    moves_along N cin (total_stride layers) N' cout T1 T2.
Proof.
  intros cout d channels kernels rates strides outK outrate outstride sigma isc osc ps N N' cin layout1 layout2 m1 m2 layers Hd (L1 & L2 & L3) T1 H1 T2 H2 EN Hi Ho.
  unfold forward_flex_tower. change all_layers with per_layer. rewrite L1, L2, L3, !Nat.eqb_refl. cbn [andb negb]. do 2 eexists. split; [reflexivity|]. split; [reflexivity|].
  set (hid := combine kernels (combine (per_layer (length channels) rates) (per_layer (length channels) strides))) in *. change (tower_layers _ _ _ _ _) with (hid ++ [(outK, (outrate, outstride))]) in layers.
  assert (Lh : length hid = length channels) by (unfold hid; rewrite !combine_length; lia).
  assert (HN : forall i, (i < length N)%nat -> (0 < nth i N 0)%nat).
  { assert (HH : exists K r, tile_holds r K m1). { clear - H1. unfold layers in H1. clearbody hid. destruct hid as [|(K, (r, s)) hid]; cbn [app tiles_hold] in H1; [exists outK, outrate | exists K, r]; apply H1. } destruct HH as (K & r & HH). exact (@tiled_pos _ _ _ _ _ T1 HH). }
  pose proof (@hidden_moves d sigma ps channels hid 0 cin N N' layout1 layout2 m1 m2 (outK, (outrate, outstride)) cout Hd ltac:(lia) T1 H1 T2 H2 EN) as C. fold layers in C. cbn [fst snd Nat.add] in C. rewrite Lh in C.
  intros k x1 x2 Hk Hx. destruct (Hi N cin Hd HN (map (Z.mul (Z.of_nat (total_stride layers))) k) x1 x2) as (a1 & a2 & A1 & A2 & Ha); [rewrite map_length; exact Hk | rewrite mul_one; exact Hx |].
  rewrite A1, A2. cbn [bind]. destruct (C k a1 a2 Hk Ha) as (b1 & b2 & B1 & B2 & Hb).
  match type of B1 with bind ?r _ = _ => destruct r as [h1|]; [|discriminate] end. match type of B2 with bind ?r _ = _ => destruct r as [h2|]; [|discriminate] end. cbn [bind] in *. rewrite B1, B2. cbn [bind].
  assert (LN' : length N' = length N) by (rewrite EN, map_length; reflexivity).
  destruct (Ho N' cout ltac:(congruence)) with (k := k) (x1 := b1) (x2 := b2) as (c1 & c2 & C1 & C2 & Hc); [| congruence | rewrite mul_one; exact Hb | eauto].
  intros i Hi'. specialize (HN i). rewrite EN, map_length, nth_map_muln in HN. specialize (HN Hi'). nia.
Qed.
(* @prop C72 A network that moves along with its input (as towers do) maps fields that are the same everywhere to fields that are the same everywhere. *)
Lemma uniform_stays_uniform_lem : forall N cin s N' cout T v x, moves_along N cin s N' cout T T -> length N' = length N -> (forall i, (i < length N)%nat -> (0 < nth i N 0)%nat) -> uniform N cin v x ->
  exists y v', T x = Ok y /\ uniform N' cout v' y.
Proof.
  intros N cin s N' cout T v x HT HL HN (Sx & Vx).
  assert (Hm : forall k, moved k N cin x x).
  { intros k. split; [exact Sx|]. split; [exact Sx|]. intros ix o Hin. rewrite Vx by exact Hin. destruct (inb_last _ _ _ Hin) as (j & cc & Ej & Hj & Hc). apply app_inj_tail in Ej. destruct Ej as (<- & <-). rewrite Vx by (apply inb_app_intro; [apply cell_at_inb; exact HN | cbn [inb]; auto]). reflexivity. }
  destruct (HT (repeat 0 (length N)) x x) as (y & y' & E & _ & Sy & _ & _); [apply repeat_length | apply Hm |].
  exists y, (fun o => get y (repeat 0 (length N) ++ [o])). split; [exact E|]. split; [exact Sy|]. intros ix o Hin. destruct (inb_last _ _ _ Hin) as (j & cc & Ej & Hj & Hc). apply app_inj_tail in Ej. destruct Ej as (<- & <-).
  pose proof (inb_length _ _ Hj) as Lj. destruct (HT ix x x) as (y1 & y2 & E1 & E2 & _ & _ & V); [congruence | apply Hm |]. rewrite E in E1, E2. injection E1 as <-. injection E2 as <-.
  rewrite (V (repeat 0 (length N)) o).
  - do 2 f_equal. apply (list_ext_nth 0); [rewrite cell_at_len; lia|]. intros i Hi. rewrite cell_at_nth by lia. rewrite nth_repeat' by lia. rewrite nth_nil_nat, Z.add_0_l, Z.sub_0_r. symmetry. apply Z.mod_small. apply inb_nth; [exact Hj | lia].
  - apply inb_app_intro; [|cbn [inb]; auto]. apply inb_intro; [rewrite repeat_length; congruence|]. intros i Hi. rewrite nth_repeat' by lia. pose proof (@inb_nth _ _ i Hj Hi). lia.
Qed.
(* @prop C72 A tower whose channels, kernels, rates and strides do not have the same number of entries is refused when it is built. *)
Lemma conflicting_lengths_refused_lem : forall cout d channels kernels rates strides outK outrate outstride conv nonlinearity inputs_scale output_scale ps,
  ~ one_per_layer (length channels) kernels rates strides ->
  forward_flex_tower cout d channels kernels rates strides outK outrate outstride conv nonlinearity inputs_scale output_scale ps = Err EValue.
Proof.
  intros cout d channels kernels rates strides outK outrate outstride conv sigma isc osc ps H. unfold forward_flex_tower. change all_layers with per_layer.
  destruct (Nat.eqb_spec (length kernels) (length channels)) as [E1|E1]; [|reflexivity]. destruct (Nat.eqb_spec (length (per_layer (length channels) rates)) (length channels)) as [E2|E2]; [|reflexivity].
  destruct (Nat.eqb_spec (length (per_layer (length channels) strides)) (length channels)) as [E3|E3]; [|reflexivity]. exfalso. apply H. split; auto.
Qed.
(* @prop C72 The layout changes the result of a strided convolution when the stride does not divide the tiles: on 6 cells, with stride 2, two tiles of three cells give 4 output cells, no tiles give 3. *)
Lemma strided_layout_refuted_lem : exists p x y1 y2, channels_last x [6%nat] 1 /\ tiled_by [6%nat] [2%nat] [3%nat] /\ tile_holds 1 [3%nat] [3%nat] /\
  periodic_convolution_module (Some [2%nat]) p 1 [3%nat] 1 1 2 x = Ok y1 /\ periodic_convolution_module None p 1 [3%nat] 1 1 2 x = Ok y2 /\
  channels_last y1 [4%nat] 1 /\ channels_last y2 [3%nat] 1.
Proof.
  exists (mkparams (fun _ => 1%R) (fun _ => 0%R)), (mkarr [6; 1]%nat (fun _ => 1%R)). do 2 eexists. split; [reflexivity|]. split; [|split; [|split; [reflexivity|]; split; [reflexivity|]; split; reflexivity]].
  - split; [cbn; lia|]. split; [reflexivity|]. split; [reflexivity|]. intros [|i] Hi; cbn in *; lia.
  - split; [reflexivity|]. split; [lia|]. intros [|i] Hi; cbn in *; lia.
Qed.

(** ** examples: 3 x 3 kernels whose tap (i, j) weighs i, and the 4 x 6 array x46 *)
Definition p33 : params := mkparams (fun ix => IZR (nth 0 ix 0)) (fun o => IZR (o + 7)).
Lemma holds46 : tile_holds 1 [3; 3]%nat [2; 2]%nat.
Proof. split; [reflexivity|]. split; [lia|]. intros [|[|i]] Hi; cbn in *; lia. Qed.
(* @ex *)
Lemma conv_layer_exact_ex_lem : exists y, periodic_convolution_module (Some [2; 3]%nat) p33 1 [3; 3]%nat 2 1 2 x46 = Ok y /\ channels_last y [2; 3]%nat 1 /\ get y [0; 0; 0] = 61%R.
Proof.
  destruct (@conv_layer_exact_lem p33 [4; 6]%nat [3; 3]%nat 1 1 1 2 (Some [2; 3]%nat) [2; 2]%nat x46 x46_cl tb46 holds46 ltac:(lia)) as (y & E & S & V).
  - intros [|[|i]] Hi; cbn in *; try lia; right; exists 1%nat; reflexivity.
  - exists y. split; [exact E|]. split; [exact S|]. specialize (V [0; 0] 0 ltac:(cbn; lia)). change ([0; 0] ++ [0]) with [0; 0; 0] in V. rewrite V. unfold dilated_correlation, cell_at, span, x46, p33. simpl. change (-1 mod 6) with 5. change (0 mod 6) with 0. change (1 mod 6) with 1. lra.
Qed.
Definition tower_setting (layout : option (list nat)) (m : list nat) : Prop :=
  tiled_by [4; 6]%nat (layout_for [4; 6]%nat layout) m /\ tiles_hold m (tower_layers 2 [[3; 3]; [2; 1]]%nat (inr [1; 2]%nat) (inr [2; 1]%nat) ([1; 1]%nat, (1, 1)%nat)).
Lemma tower_setting_some : tower_setting (Some [2; 3]%nat) [2; 2]%nat.
Proof.
  split; [exact tb46|]. cbn [tower_layers per_layer combine app tiles_hold]. split; [exact holds46|]. split; [lia|]. exists [1; 1]%nat. split; [reflexivity|].
  split; [split; [reflexivity|]; split; [lia|]; intros [|[|i]] Hi; cbn in *; lia|]. split; [lia|]. exists [1; 1]%nat. split; [reflexivity|].
  split; [split; [reflexivity|]; split; [lia|]; intros [|[|i]] Hi; cbn in *; lia|]. split; [lia|]. exists [1; 1]%nat. split; [reflexivity | exact I].
Qed.
Lemma tower_setting_none : tower_setting None [4; 6]%nat.
Proof.
  split; [exact tb46_one|]. cbn [tower_layers per_layer combine app tiles_hold]. split; [split; [reflexivity|]; split; [lia|]; intros [|[|i]] Hi; cbn in *; lia|]. split; [lia|]. exists [2; 3]%nat. split; [reflexivity|].
  split; [split; [reflexivity|]; split; [lia|]; intros [|[|i]] Hi; cbn in *; lia|]. split; [lia|]. exists [2; 3]%nat. split; [reflexivity|].
  split; [split; [reflexivity|]; split; [lia|]; intros [|[|i]] Hi; cbn in *; lia|]. split; [lia|]. exists [2; 3]%nat. split; [reflexivity | exact I].
Qed.
Lemma no_scale_plain d : plain_scaling d (fun x => no_scale x (seq 0 d)).
Proof. intros N c Hd HN k x y Hk H. rewrite mul_one in H. exists x, y. auto. Qed.
(* @ex *)
Lemma tower_moves_along_ex_lem : exists T1 T2,
  forward_flex_tower 1 2 [4; 5]%nat [[3; 3]; [2; 1]]%nat (inr [1; 2]%nat) (inr [2; 1]%nat) [1; 1]%nat 1 1 (periodic_convolution_module (Some [2; 3]%nat)) (Rmax 0) no_scale no_scale (fun _ => p33) = Ok T1 /\
  forward_flex_tower 1 2 [4; 5]%nat [[3; 3]; [2; 1]]%nat (inr [1; 2]%nat) (inr [2; 1]%nat) [1; 1]%nat 1 1 (periodic_convolution_module None) (Rmax 0) no_scale no_scale (fun _ => p33) = Ok T2 /\
  moves_along [4; 6]%nat 1 2 [2; 3]%nat 1 T1 T2.
Proof.
  destruct tower_setting_some as (A1 & A2). destruct tower_setting_none as (B1 & B2).
  apply (@tower_moves_along_lem 1 2 [4; 5]%nat [[3; 3]; [2; 1]]%nat (inr [1; 2]%nat) (inr [2; 1]%nat) [1; 1]%nat 1 1 (Rmax 0) no_scale no_scale (fun _ => p33) [4; 6]%nat [2; 3]%nat 1 (Some [2; 3]%nat) None [2; 2]%nat [4; 6]%nat); try assumption; try reflexivity; try apply no_scale_plain.
  split; [reflexivity|]. split; reflexivity.
Qed.
(* @ex *)
Lemma uniform_stays_uniform_ex_lem : exists T y v, moves_along [4; 6]%nat 1 2 [2; 3]%nat 1 T T /\ T (mkarr [4; 6; 1]%nat (fun _ => 5%R)) = Ok y /\ uniform [2; 3]%nat 1 v y.
Proof.
  destruct tower_setting_none as (B1 & B2).
  destruct (@tower_moves_along_lem 1 2 [4; 5]%nat [[3; 3]; [2; 1]]%nat (inr [1; 2]%nat) (inr [2; 1]%nat) [1; 1]%nat 1 1 (Rmax 0) no_scale no_scale (fun _ => p33) [4; 6]%nat [2; 3]%nat 1 None None [4; 6]%nat [4; 6]%nat) as (T1 & T2 & E1 & E2 & M); try assumption; try reflexivity; try apply no_scale_plain.
  - split; [reflexivity|]. split; reflexivity.
  - rewrite E1 in E2. injection E2 as <-. exists T1. destruct (@uniform_stays_uniform_lem _ _ _ _ _ _ (fun _ => 5%R) (mkarr [4; 6; 1]%nat (fun _ => 5%R)) M) as (y & v & Ey & Hy); [reflexivity | intros [|[|i]] Hi; cbn in *; lia | split; [reflexivity | reflexivity] |]. exists y, v. split; [exact M|]. split; assumption.
Qed.
(* @ex *)
Lemma conflicting_lengths_refused_ex_lem : ~ one_per_layer 2 [[3; 3]; [3; 3]]%nat (inr [1; 1]%nat) (inr [1]%nat).
Proof. intros (_ & _ & H). discriminate H. Qed.
