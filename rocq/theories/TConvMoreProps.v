(** * C73: transpose convolutions and convolutions: movement, adjointness, refusals *)
From Verif Require Import Prelude NdArr ArrayUtils_model Tiling_model Equations_model Towers_model TConv_model SpecTile SpecTower SpecTConv TilingProofs TilingProps TowerProps TowerMoreProps XarrayProps TConvProps.
Set Implicit Arguments.
Local Open Scope Z_scope.

Lemma fine_setting s N K : kernel_fits s N K -> tiled_by (map (Nat.mul s) N) (layout_for (map (Nat.mul s) N) None) (map (Nat.mul s) N) /\ tile_holds 1 K (map (Nat.mul s) N).
Proof.
  intros ((H1 & H3) & LK & Hs & HK). split.
  - unfold layout_for. apply tiled_one. rewrite map_length. lia.
  - split; [rewrite map_length; exact LK|]. split; [lia|]. rewrite map_length. intros i Hi. rewrite nth_map_muln. specialize (HK i Hi). rewrite span1 by lia.
    destruct HK as (Hk & Hd). pose proof (Nat.div_mod (nth i K 0%nat) s ltac:(lia)). pose proof (Nat.mod_upper_bound (nth i K 0%nat) s ltac:(lia)). pose proof (Nat.div_le_upper_bound (nth i K 0%nat) 2 (nth i K 0%nat) ltac:(lia) ltac:(lia)). nia.
Qed.
Lemma ceil_one N : map (fun n => ((n + 1 - 1) / 1)%nat) N = N.
Proof. rewrite <- (map_id N) at 2. apply map_ext. intros n. rewrite Nat.div_1_r. lia. Qed.

(* @prop C73 A transpose convolution of stride s is the ordinary periodic convolution layer (stride one, same weights with the channel axes exchanged, same bias) applied to the input spread out on the grid that is s times finer. *)
Lemma transpose_is_conv_of_spread_lem : forall (p : params) (N K : list nat) (cin cout stride : nat) (x : arr R), channels_last x N cin -> kernel_fits stride N K ->
  exists y1 y2, periodic_transpose_convolution None p cout K (length N) None stride x = Ok y1 /\
    periodic_convolution_module None (mkparams (swap_channels (length N) (weights p)) (bias p)) cout K (length N) 1 1 (spread_out stride N cin x) = Ok y2 /\
    channels_last y1 (map (Nat.mul stride) N) cout /\ aeq y1 y2.
Proof.
  intros p N K cin cout s x Hx HF. destruct (@transpose_layer_exact_lem p N K cin cout s None x Hx HF (or_introl eq_refl)) as (y1 & E1 & S1 & V1).
  destruct (fine_setting HF) as (HT & HH). pose proof HF as ((H1 & H3) & LK & Hs & HK).
  destruct (@conv_layer_exact_lem (mkparams (swap_channels (length N) (weights p)) (bias p)) (map (Nat.mul s) N) K cin cout 1 1 None _ (spread_out s N cin x) eq_refl HT HH ltac:(lia)) as (y2 & E2 & S2 & V2).
  { intros i Hi. right. exists (nth i (map (Nat.mul s) N) 0%nat). lia. }
  rewrite ceil_one in S2, V2. rewrite map_length in E2. exists y1, y2. split; [exact E1|]. split; [exact E2|]. split; [exact S1|]. unfold channels_last in S1, S2. split; [congruence|]. intros ix Hix. rewrite S1 in Hix.
  destruct (inb_last _ _ _ Hix) as (j & o & -> & Hj & Ho). rewrite V1, V2 by exact Hix. reflexivity.
Qed.
(* @ex *)
Lemma transpose_is_conv_of_spread_ex_lem : exists y, periodic_transpose_convolution None p33 3 [3; 5]%nat 2 None 2 x46 = Ok y /\ channels_last y [8; 12]%nat 3.
Proof. destruct (@transpose_is_conv_of_spread_lem p33 [4; 6]%nat [3; 5]%nat 1 3 2 x46 x46_cl fits46) as (y & y2 & E & _ & S & _). exists y. split; [exact E | exact S]. Qed.
Lemma spread_moved s k N c x1 x2 : (0 < s)%nat -> (forall i, (i < length N)%nat -> (0 < nth i N 0)%nat) -> moved k N c x1 x2 ->
  moved (map (Z.mul (Z.of_nat s)) k) (map (Nat.mul s) N) c (spread_out s N c x1) (spread_out s N c x2).
Proof.
  intros Hs HN (S1 & S2 & V). split; [reflexivity|]. split; [reflexivity|]. intros ix o Hin. destruct (inb_last _ _ _ Hin) as (j & cc & Ej & Hj & Hc). apply app_inj_tail in Ej. destruct Ej as (<- & <-).
  pose proof (inb_length _ _ Hj) as Lj. rewrite map_length in Lj. unfold spread_out. cbn [get].
  set (ca := cell_at (map (Nat.mul s) N) [] ix (map (Z.mul (Z.of_nat s)) k)). assert (Lca : length ca = length N) by (unfold ca; rewrite cell_at_len, map_length; reflexivity).
  assert (Eca : forall i, (i < length N)%nat -> nth i ca 0 mod Z.of_nat s = nth i ix 0 mod Z.of_nat s /\ nth i ca 0 / Z.of_nat s = (nth i ix 0 / Z.of_nat s + nth i k 0) mod Z.of_nat (nth i N 0%nat)).
  { intros i Hi. unfold ca. rewrite cell_at_nth by (rewrite map_length; exact Hi). rewrite nth_nil_nat, nth_map_mul, nth_map_muln. change (Z.of_nat 0) with 0. rewrite Z.sub_0_r, Nat2Z.inj_mul. specialize (HN i Hi).
    rewrite (Z.rem_mul_r (nth i ix 0 + Z.of_nat s * nth i k 0) (Z.of_nat s) (Z.of_nat (nth i N 0%nat))) by lia. rewrite (Z.mul_comm (Z.of_nat s) (nth i k 0)), Z.mod_add, Z.div_add by lia. rewrite (Z.mul_comm (Z.of_nat s)). split.
    - rewrite Z.mod_add by lia. apply Z.mod_mod. lia.
    - rewrite Z.div_add by lia. rewrite (Z.div_small (nth i ix 0 mod Z.of_nat s)) by (apply Z.mod_pos_bound; lia). lia. }
  rewrite (@nth_post _ ix o [] _ 0 Lj), (@nth_post _ ca o [] _ 0 Lca).
  assert (Ef : forall l, (forall i, In i l -> (i < length N)%nat) -> forallb (fun i => nth i (ca ++ [o]) 0 mod Z.of_nat s =? 0) l = forallb (fun i => nth i (ix ++ [o]) 0 mod Z.of_nat s =? 0) l).
  { induction l as [|i l IH]; intros Hl; [reflexivity|]. cbn [forallb]. rewrite IH by (intros; apply Hl; right; assumption). assert (Hi : (i < length N)%nat) by (apply Hl; left; reflexivity). rewrite !app_nth1 by lia. rewrite (proj1 (Eca i Hi)). reflexivity. }
  rewrite Ef by (intros i Hi; apply in_seq in Hi; lia). destruct (forallb _ _); [|reflexivity].
  rewrite V.
  - do 2 f_equal. unfold cell_at. apply map_ext_in. intros i Hi. apply in_seq in Hi. rewrite (@nth_map_seq _ (fun i => nth i (ix ++ [o]) 0 / Z.of_nat s)) by lia. rewrite nth_nil_nat. change (Z.of_nat 0) with 0. rewrite Z.sub_0_r. rewrite !app_nth1 by lia. symmetry. apply Eca. lia.
  - apply inb_app_intro; [|cbn [inb]; auto]. apply inb_intro; [rewrite map_length, seq_length; reflexivity|]. intros i Hi. rewrite (@nth_map_seq _ (fun i => nth i (ix ++ [o]) 0 / Z.of_nat s)) by lia. rewrite app_nth1 by lia.
    pose proof (@inb_nth _ _ i Hj ltac:(rewrite map_length; lia)) as Hr. rewrite nth_map_muln in Hr. split; [apply Z.div_pos; lia | apply Z.div_lt_upper_bound; lia].
Qed.
(* @prop C73 Transpose convolutions move along with their input: moving the input by k cells moves the output by stride * k cells, for every k, kernel, weights and stride. *)
Lemma transpose_moves_along_lem : forall (p : params) (N K : list nat) (cin cout stride : nat) (k : list Z) (x1 x2 : arr R), kernel_fits stride N K -> length k = length N -> moved k N cin x1 x2 ->
  exists y1 y2, periodic_transpose_convolution None p cout K (length N) None stride x1 = Ok y1 /\ periodic_transpose_convolution None p cout K (length N) None stride x2 = Ok y2 /\
    moved (map (Z.mul (Z.of_nat stride)) k) (map (Nat.mul stride) N) cout y1 y2.
Proof.
  intros p N K cin cout s k x1 x2 HF Lk HM. pose proof HM as (S1 & S2 & _). pose proof HF as (_ & _ & Hs & _).
  destruct (@transpose_is_conv_of_spread_lem p N K cin cout s x1 S1 HF) as (y1 & z1 & E1 & F1 & C1 & A1). destruct (@transpose_is_conv_of_spread_lem p N K cin cout s x2 S2 HF) as (y2 & z2 & E2 & F2 & C2 & A2).
  exists y1, y2. split; [exact E1|]. split; [exact E2|]. destruct (fine_setting HF) as (HT & HH).
  assert (M1 : map (Nat.mul s) N = map (Nat.mul 1) (map (Nat.mul s) N)) by (rewrite map_map; apply map_ext; intros n; lia).
  pose proof (@conv_moves (mkparams (swap_channels (length N) (weights p)) (bias p)) cin cout K 1 1 (map (Nat.mul s) N) (map (Nat.mul s) N) None None _ _ _ _ HT HH M1 HT HH M1 ltac:(lia) M1) as MV.
  rewrite map_length in MV. destruct (MV (map (Z.mul (Z.of_nat s)) k) (spread_out s N cin x1) (spread_out s N cin x2)) as (w1 & w2 & G1 & G2 & _ & _ & V).
  - rewrite !map_length. exact Lk.
  - rewrite mulz1. apply spread_moved; [exact Hs | exact (fits_pos HF) | exact HM].
  - rewrite F1 in G1. injection G1 as <-. rewrite F2 in G2. injection G2 as <-. split; [exact C1|]. split; [exact C2|]. intros ix o Hin. destruct A1 as (_ & A1). destruct A2 as (_ & A2). rewrite C2 in A2. rewrite C1 in A1. rewrite A2 by exact Hin. rewrite V by exact Hin. symmetry. apply A1.
    destruct (inb_last _ _ _ Hin) as (j & cc & Ej & Hj & Hc). apply app_inj_tail in Ej. destruct Ej as (<- & <-). apply inb_app_intro; [|cbn [inb]; auto]. apply cell_at_inb. intros i Hi. rewrite map_length in Hi. rewrite nth_map_muln. pose proof (fits_pos HF Hi). nia.
Qed.
(* @ex *)
Lemma transpose_moves_along_ex_lem : moved [1; -2] [4; 6]%nat 1 x46 (mkarr [4; 6; 1]%nat (fun ix => get x46 (cell_at [4; 6]%nat [] (firstn 2 ix) [1; -2] ++ [nth 2 ix 0]))).
Proof.
  split; [exact x46_cl|]. split; [reflexivity|]. intros ix o Hin. destruct (inb_last _ _ _ Hin) as (j & cc & Ej & Hj & Hc). apply app_inj_tail in Ej. destruct Ej as (<- & <-). pose proof (inb_length _ _ Hj) as Lj. cbn [length] in Lj.
  cbn [get]. rewrite (@firstn_pre _ ix [o] _ Lj), (@nth_post _ ix o [] _ 0 Lj). reflexivity.
Qed.

(** ** adjointness *)
Lemma asum_app : forall s1 s2 f, asum (s1 ++ s2) f = asum s1 (fun i => asum s2 (fun j => f (i ++ j))).
Proof. induction s1 as [|n s1 IH]; intros s2 f; [reflexivity|]. cbn [app asum]. apply rsum_ext. intros i _. rewrite IH. reflexivity. Qed.
Lemma asum_asum : forall s1 s2 (f : list Z -> list Z -> R), asum s1 (fun i => asum s2 (fun j => f i j)) = asum s2 (fun j => asum s1 (fun i => f i j)).
Proof.
  induction s1 as [|n s1 IH]; intros s2 f; [reflexivity|]. cbn [asum]. rewrite (@asum_rsum s2 n (fun i j => asum s1 (fun ix => f (i :: ix) j))). apply rsum_ext. intros i _. apply IH.
Qed.
Lemma seq_shift_map {A} (f : nat -> A) n : map f (seq 1 n) = map (fun i => f (S i)) (seq 0 n).
Proof. rewrite <- seq_shift, map_map. reflexivity. Qed.
Lemma asum_move : forall s (d : nat -> Z) F, (forall i, (i < length s)%nat -> (0 < nth i s 0)%nat) ->
  asum s (fun ix => F (map (fun i => (nth i ix 0 + d i) mod Z.of_nat (nth i s 0%nat)) (seq 0 (length s)))) = asum s F.
Proof.
  induction s as [|n s IH]; intros d F Hp; [reflexivity|]. cbn [asum length seq map].
  transitivity (rsum n (fun i => asum s (fun ix => F ((i + d 0%nat) mod Z.of_nat n :: ix)))).
  - apply rsum_ext. intros i _. rewrite <- (@IH (fun j => d (S j)) (fun ix => F ((i + d 0%nat) mod Z.of_nat n :: ix))) by (intros j Hj; apply (Hp (S j)); cbn [length]; lia).
    apply asum_ext. intros ix _. cbn [nth]. rewrite seq_shift_map. reflexivity.
  - rewrite (@rsum_mod_shift n (d 0%nat) (fun i => asum s (fun ix => F (i :: ix)))) by (apply (Hp 0%nat); cbn; lia). reflexivity.
Qed.
Lemma asum_reverse : forall s F, asum s (fun ix => F (map (fun i => Z.of_nat (nth i s 0%nat) - 1 - nth i ix 0) (seq 0 (length s)))) = asum s F.
Proof.
  induction s as [|n s IH]; intros F; [reflexivity|]. cbn [asum length seq map]. rewrite (@rsum_rev n (fun i => asum s (fun ix => F (i :: ix)))). apply rsum_ext. intros i _.
  rewrite <- (IH (fun ix => F (Z.of_nat n - 1 - i :: ix))). apply asum_ext. intros ix _. cbn [nth]. rewrite seq_shift_map. reflexivity.
Qed.
Lemma rsum_multiples s n (f : Z -> R) : (0 < s)%nat -> rsum (s * n) (fun m => if m mod Z.of_nat s =? 0 then f (m / Z.of_nat s) else 0%R) = rsum n f.
Proof.
  intros Hs. induction n as [|n IH]; [rewrite Nat.mul_0_r; reflexivity|]. rewrite Nat.mul_succ_r, rsum_split. rewrite IH. cbn [rsum]. f_equal.
  transitivity (rsum s (fun i => if i =? 0 then f (Z.of_nat n) else 0%R)).
  - apply rsum_ext. intros i Hi. rewrite Nat2Z.inj_mul, (Z.mul_comm (Z.of_nat s)), Z.mod_add, Z.div_add by lia. rewrite Z.mod_small, Z.div_small by lia. replace (0 + Z.of_nat n) with (Z.of_nat n) by lia. reflexivity.
  - destruct s as [|s]; [lia|]. clear. rewrite <- (Nat.add_1_l s), rsum_split. cbn [rsum]. rewrite (@rsum_ext s _ (fun _ => 0%R)). 2:{ intros i Hi. destruct (Z.eqb_spec (i + Z.of_nat 1) 0); [lia | reflexivity]. } rewrite rsum_0. cbn. ring.
Qed.
Lemma asum_spread : forall s N (f : list Z -> R) (g : list Z -> R), (0 < s)%nat ->
  asum (map (Nat.mul s) N) (fun m => (if forallb (fun i => nth i m 0 mod Z.of_nat s =? 0)%Z (seq 0 (length N)) then f (map (fun i => nth i m 0 / Z.of_nat s)%Z (seq 0 (length N))) else 0) * g m)%R
  = asum N (fun i => f i * g (map (Z.mul (Z.of_nat s)) i))%R.
Proof.
  intros s N. induction N as [|n N IH]; intros f g Hs; [reflexivity|]. cbn [map asum length].
  rewrite <- (@rsum_multiples s n (fun i => asum N (fun ix => f (i :: ix) * g ((Z.of_nat s * i)%Z :: map (Z.mul (Z.of_nat s)) ix)))%R Hs). apply rsum_ext. intros i Hi. cbn [seq forallb nth map].
  destruct (Z.eqb_spec (i mod Z.of_nat s) 0) as [E|E].
  - rewrite <- (IH (fun ix => f (i / Z.of_nat s :: ix)) (fun ix => g (Z.of_nat s * (i / Z.of_nat s) :: ix)) Hs). apply asum_ext. intros ix _. cbn [andb].
    assert (Ei : Z.of_nat s * (i / Z.of_nat s) = i) by (pose proof (Z.div_mod i (Z.of_nat s) ltac:(lia)); lia). rewrite Ei. rewrite seq_shift_map.
    replace (forallb _ (seq 1 (length N))) with (forallb (fun j => nth j ix 0 mod Z.of_nat s =? 0) (seq 0 (length N))); [reflexivity|].
    rewrite <- seq_shift. generalize (seq 0 (length N)). induction l as [|a l IHl]; [reflexivity|]. cbn [map forallb nth]. rewrite IHl. reflexivity.
  - cbn [andb]. rewrite (@asum_ext _ _ (fun _ => 0%R)) by (intros; ring). apply asum_0.
Qed.

(* @prop C73 Transpose convolution is the transpose of convolution: for odd kernels, every stride s and all weights (no bias), sum(conv(x) * y) = sum(x * conv_transpose(y)), where conv is the periodic convolution layer of stride s from the fine to the coarse grid and conv_transpose the transpose layer with the taps in reverse order. *)
Lemma transpose_is_adjoint_lem : forall (w : list Z -> R) (N K : list nat) (cin cout stride : nat) (x y : arr R), kernel_fits stride N K -> (forall i, (i < length K)%nat -> Nat.Odd (nth i K 0%nat)) ->
  channels_last x (map (Nat.mul stride) N) cin -> channels_last y N cout ->
  exists cx ty, periodic_convolution_module None (mkparams w (fun _ => 0%R)) cout K (length N) 1 stride x = Ok cx /\ channels_last cx N cout /\
    periodic_transpose_convolution None (mkparams (reverse_taps K w) (fun _ => 0%R)) cin K (length N) None stride y = Ok ty /\ channels_last ty (map (Nat.mul stride) N) cin /\
    inner (N ++ [cout]) cx y = inner (map (Nat.mul stride) N ++ [cin]) x ty.
Proof.
  intros w N K cin cout s x y HF Hodd Hx Hy. pose proof (fits_pos HF) as HN. pose proof HF as ((H1 & H3) & LK & Hs & HK). destruct (fine_setting HF) as (HT & HH).
  destruct (@conv_layer_exact_lem (mkparams w (fun _ => 0%R)) (map (Nat.mul s) N) K cin cout 1 s None _ x Hx HT HH Hs) as (cx & Ec & Sc & Vc).
  { intros i Hi. right. rewrite nth_map_muln. exists (nth i N 0%nat). lia. }
  rewrite map_length in Ec. rewrite (@ceil_mult (map (Nat.mul s) N) N s Hs eq_refl) in Sc, Vc.
  destruct (@transpose_layer_exact_lem (mkparams (reverse_taps K w) (fun _ => 0%R)) N K cout cin s None y Hy HF (or_introl eq_refl)) as (ty & Et & St & Vt).
  exists cx, ty. split; [exact Ec|]. split; [exact Sc|]. split; [exact Et|]. split; [exact St|]. unfold inner.
  set (fine := map (Nat.mul s) N) in *. assert (Lf : length fine = length N) by (unfold fine; apply map_length).
  assert (Hfine : forall i, (i < length fine)%nat -> (0 < nth i fine 0)%nat) by (intros i Hi; unfold fine; rewrite nth_map_muln; specialize (HN i ltac:(lia)); nia).
  set (pad := map (fun k => (span 1 k / 2)%nat) K).
  (* left hand side *)
  transitivity (asum K (fun t => asum [cin] (fun c => asum [cout] (fun o => w (t ++ c ++ o) * asum N (fun i => get x (cell_at fine pad (map (Z.mul (Z.of_nat s)) i) t ++ c) * get y (i ++ o)))))%R).
  { rewrite asum_app.
    transitivity (asum N (fun i => asum [cout] (fun o => asum K (fun t => asum [cin] (fun c => get x (cell_at fine pad (map (Z.mul (Z.of_nat s)) i) t ++ c) * get y (i ++ o) * w (t ++ c ++ o)))))%R).
    { apply asum_ext. intros i Hi. apply asum_ext. intros o Ho. destruct o as [|o [|? ?]]; try (cbn in Ho; tauto).
      rewrite Vc by (apply inb_app_intro; assumption). unfold dilated_correlation. cbn [bias weights]. rewrite Rplus_0_l, asum_app, <- asum_scal_r. apply asum_ext. intros t Ht. rewrite <- asum_scal_r. apply asum_ext. intros c Hc.
      destruct c as [|c [|? ?]]; try (cbn in Hc; tauto). pose proof (inb_length _ _ Ht) as Lt. rewrite (@firstn_pre _ t [c] _ Lt), (@nth_post _ t c [] _ 0 Lt), mulz1. rewrite <- app_assoc. fold pad. ring. }
    rewrite (@asum_asum N [cout]). rewrite (@asum_asum [cout]).
    transitivity (asum N (fun i => asum K (fun t => asum [cin] (fun c => asum [cout] (fun o => get x (cell_at fine pad (map (Z.mul (Z.of_nat s)) i) t ++ c) * get y (i ++ o) * w (t ++ c ++ o)))))%R).
    { apply asum_ext. intros i _. rewrite (@asum_asum [cout] K). apply asum_ext. intros t _. apply asum_asum. }
    rewrite (@asum_asum N K). apply asum_ext. intros t _. rewrite (@asum_asum N [cin]). apply asum_ext. intros c _. rewrite (@asum_asum N [cout]). apply asum_ext. intros o _. rewrite <- asum_scal. apply asum_ext. intros i _. ring. }
  (* right hand side *)
  symmetry.
  transitivity (asum K (fun t => asum [cin] (fun c => asum [cout] (fun o => reverse_taps K w (t ++ c ++ o) * asum fine (fun m => get x (m ++ c) * get (spread_out s N cout y) (cell_at fine pad m t ++ o)))))%R).
  { rewrite asum_app.
    transitivity (asum fine (fun m => asum [cin] (fun c => asum K (fun t => asum [cout] (fun o => get x (m ++ c) * get (spread_out s N cout y) (cell_at fine pad m t ++ o) * reverse_taps K w (t ++ c ++ o)))))%R).
    { apply asum_ext. intros i Hi. apply asum_ext. intros c Hc. destruct c as [|c [|? ?]]; try (cbn in Hc; tauto).
      rewrite Vt by (apply inb_app_intro; assumption). unfold dilated_correlation. cbn [bias weights]. rewrite Rplus_0_l, asum_app, <- asum_scal. apply asum_ext. intros t Ht. rewrite <- asum_scal. apply asum_ext. intros o Ho.
      destruct o as [|o [|? ?]]; try (cbn in Ho; tauto). pose proof (inb_length _ _ Ht) as Lt. rewrite (@firstn_pre _ t [o] _ Lt), (@nth_post _ t o [] _ 0 Lt), !mulz1. fold pad.
      unfold swap_channels. rewrite <- app_assoc. rewrite (@firstn_pre _ t _ _ (eq_trans Lt LK)). rewrite (@app_nth2 _ t ([o] ++ [c])) by lia. replace (S (length N) - length t)%nat with 1%nat by lia. rewrite (@app_nth2 _ t ([o] ++ [c])) by lia. replace (length N - length t)%nat with 0%nat by lia. cbn [app nth]. ring. }
    transitivity (asum fine (fun m => asum K (fun t => asum [cin] (fun c => asum [cout] (fun o => get x (m ++ c) * get (spread_out s N cout y) (cell_at fine pad m t ++ o) * reverse_taps K w (t ++ c ++ o)))))%R).
    { apply asum_ext. intros m _. apply asum_asum. }
    rewrite (@asum_asum fine K). apply asum_ext. intros t _. rewrite (@asum_asum fine [cin]). apply asum_ext. intros c _. rewrite (@asum_asum fine [cout]). apply asum_ext. intros o _. rewrite <- asum_scal. apply asum_ext. intros i _. ring. }
  rewrite <- (@asum_reverse K (fun t => asum [cin] (fun c => asum [cout] (fun o => w (t ++ c ++ o) * asum N (fun i => get x (cell_at fine pad (map (Z.mul (Z.of_nat s)) i) t ++ c) * get y (i ++ o)))))%R).
  apply asum_ext. intros t Ht. pose proof (inb_length _ _ Ht) as Lt. apply asum_ext. intros c Hc. apply asum_ext. intros o Ho.
  set (rt := map (fun i => Z.of_nat (nth i K 0%nat) - 1 - nth i t 0) (seq 0 (length K))).
  assert (Ew : reverse_taps K w (t ++ c ++ o) = w (rt ++ c ++ o)).
  { unfold reverse_taps. rewrite skipn_app, skipn_all2 by lia. replace (length K - length t)%nat with 0%nat by lia. cbn [skipn app]. f_equal. f_equal. apply map_ext_in. intros i Hi. apply in_seq in Hi. rewrite app_nth1 by lia. reflexivity. }
  rewrite Ew. f_equal. destruct o as [|o [|? ?]]; try (cbn in Ho; tauto).
  rewrite <- (@asum_move fine (fun i => nth i rt 0 - Z.of_nat (nth i pad 0%nat))%Z (fun m => get x (m ++ c) * get (spread_out s N cout y) (cell_at fine pad m t ++ [o]))%R) by exact Hfine.
  transitivity (asum fine (fun m => (if forallb (fun i => nth i m 0 mod Z.of_nat s =? 0)%Z (seq 0 (length N)) then get y (map (fun i => nth i m 0 / Z.of_nat s)%Z (seq 0 (length N)) ++ [o]) else 0) * get x (cell_at fine pad m rt ++ c))%R).
  2:{ etransitivity; [exact (@asum_spread s N (fun i => get y (i ++ [o])) (fun m => get x (cell_at fine pad m rt ++ c)) Hs)|]. apply asum_ext. intros i _. cbv beta. ring. }
  apply asum_ext. intros m Hm. pose proof (inb_length _ _ Hm) as Lm.
  assert (E1 : map (fun i => (nth i m 0 + (nth i rt 0 - Z.of_nat (nth i pad 0%nat))) mod Z.of_nat (nth i fine 0%nat)) (seq 0 (length fine)) = cell_at fine pad m rt).
  { unfold cell_at. apply map_ext. intros i. f_equal. ring. }
  rewrite E1.
  assert (E2 : cell_at fine pad (cell_at fine pad m rt) t = m).
  { apply (list_ext_nth 0); [rewrite cell_at_len; lia|]. intros i Hi. rewrite cell_at_len in Hi. rewrite !cell_at_nth by exact Hi. specialize (Hfine i Hi).
    replace ((nth i m 0 + nth i rt 0 - Z.of_nat (nth i pad 0%nat)) mod Z.of_nat (nth i fine 0%nat) + nth i t 0 - Z.of_nat (nth i pad 0%nat)) with ((nth i m 0 + nth i rt 0 - Z.of_nat (nth i pad 0%nat)) mod Z.of_nat (nth i fine 0%nat) + (nth i t 0 - Z.of_nat (nth i pad 0%nat))) by ring.
    rewrite Z.add_mod_idemp_l by lia. unfold rt. rewrite (@nth_map_seq _ (fun i => Z.of_nat (nth i K 0%nat) - 1 - nth i t 0)) by lia. unfold pad. rewrite (nth_map' _ _ 0%nat 0%nat) by lia. specialize (HK i ltac:(lia)). rewrite span1 by lia.
    destruct (Hodd i ltac:(lia)) as (h & Hh). rewrite Hh. replace ((2 * h + 1) / 2)%nat with h by (rewrite (Nat.mul_comm 2 h), Nat.div_add_l by lia; change (1 / 2)%nat with 0%nat; lia).
    rewrite <- (Z.mod_small (nth i m 0) (Z.of_nat (nth i fine 0%nat))) at 2 by (apply (@inb_nth _ _ i Hm); lia). f_equal. lia. }
  rewrite E2. unfold spread_out. cbn [get]. rewrite (@nth_post _ m o [] _ 0) by lia.
  assert (Ef : forall l, (forall i, In i l -> (i < length N)%nat) -> forallb (fun i => nth i (m ++ [o]) 0 mod Z.of_nat s =? 0) l = forallb (fun i => nth i m 0 mod Z.of_nat s =? 0) l).
  { induction l as [|i l IH]; intros Hl; [reflexivity|]. cbn [forallb]. rewrite IH by (intros; apply Hl; right; assumption). assert (Hi : (i < length N)%nat) by (apply Hl; left; reflexivity). rewrite app_nth1 by lia. reflexivity. }
  rewrite Ef by (intros i Hi; apply in_seq in Hi; lia). rewrite Rmult_comm. f_equal. destruct (forallb _ _); [|reflexivity]. do 2 f_equal. apply map_ext_in. intros i Hi. apply in_seq in Hi. rewrite app_nth1 by lia. reflexivity.
Qed.
(* @ex *)
Lemma transpose_is_adjoint_ex_lem : kernel_fits 2 [4; 6]%nat [3; 5]%nat /\ (forall i, (i < 2)%nat -> Nat.Odd (nth i [3; 5]%nat 0%nat)) /\ channels_last x46 [4; 6]%nat 1.
Proof. split; [exact fits46|]. split; [|exact x46_cl]. intros [|[|i]] Hi; [exists 1%nat; reflexivity | exists 2%nat; reflexivity | lia]. Qed.

(* @prop C73 With stride one a transpose convolution is a convolution: the periodic convolution layer with the same weights (channel axes exchanged), bias and kernel. *)
Lemma unit_stride_transpose_lem : forall (p : params) (N K : list nat) (cin cout : nat) (x : arr R), channels_last x N cin -> kernel_fits 1 N K ->
  exists y1 y2, periodic_transpose_convolution None p cout K (length N) None 1 x = Ok y1 /\
    periodic_convolution_module None (mkparams (swap_channels (length N) (weights p)) (bias p)) cout K (length N) 1 1 x = Ok y2 /\ channels_last y1 N cout /\ aeq y1 y2.
Proof.
  intros p N K cin cout x Hx HF. pose proof (fits_pos HF) as HN. pose proof HF as ((H1 & H3) & LK & Hs & HK). destruct (fine_setting HF) as (HT & HH).
  assert (EN : map (Nat.mul 1) N = N) by (rewrite <- (map_id N) at 2; apply map_ext; intros n; lia). rewrite EN in HT, HH.
  destruct (@transpose_layer_exact_lem p N K cin cout 1 None x Hx HF (or_introl eq_refl)) as (y1 & E1 & S1 & V1). rewrite EN in S1, V1.
  destruct (@conv_layer_exact_lem (mkparams (swap_channels (length N) (weights p)) (bias p)) N K cin cout 1 1 None _ x Hx HT HH ltac:(lia)) as (y2 & E2 & S2 & V2).
  { intros i Hi. right. exists (nth i N 0%nat). lia. }
  rewrite ceil_one in S2, V2. exists y1, y2. split; [exact E1|]. split; [exact E2|]. split; [exact S1|]. unfold channels_last in S1, S2. split; [congruence|]. intros ix Hix. rewrite S1 in Hix.
  destruct (inb_last _ _ _ Hix) as (j & o & -> & Hj & Ho). rewrite V1, V2 by exact Hix. unfold dilated_correlation. f_equal. apply asum_ext. intros tx Htx. f_equal.
  destruct (inb_last _ _ _ Htx) as (t & c & -> & Ht & Hc). pose proof (inb_length _ _ Ht) as Lt. rewrite (@firstn_pre _ t [c] _ Lt), (@nth_post _ t c [] _ 0 Lt).
  match goal with |- get _ (?ca ++ [c]) = _ => set (cl := ca) end. assert (Lc : length cl = length N) by (unfold cl; apply cell_at_len).
  unfold spread_out. cbn [get]. rewrite (@nth_post _ cl c [] _ 0 Lc). change (Z.of_nat 1) with 1.
  replace (forallb _ _) with true by (symmetry; apply forallb_forall; intros i _; rewrite Z.mod_1_r; reflexivity). do 2 f_equal.
  apply (list_ext_nth 0); [rewrite map_length, seq_length; lia|]. intros i Hi. rewrite map_length, seq_length in Hi. rewrite (@nth_map_seq _ (fun i => nth i (cl ++ [c]) 0 / 1)) by exact Hi. rewrite Z.div_1_r, app_nth1 by lia. reflexivity.
Qed.
(* @ex *)
Lemma unit_stride_transpose_ex_lem : channels_last x46 [4; 6]%nat 1 /\ kernel_fits 1 [4; 6]%nat [3; 5]%nat.
Proof. split; [exact x46_cl|]. split; [cbn; lia|]. split; [reflexivity|]. split; [lia|]. intros [|[|i]] Hi; cbn in *; lia. Qed.

(* @prop C73 A kernel that is too wide for an axis (kernel // stride >= axis size) is refused with a type error. *)
Lemma wide_transpose_refused_lem : forall (p : params) (N K : list nat) (cin cout stride i : nat) (x : arr R), channels_last x N cin -> (1 <= length N <= 3)%nat -> length K = length N -> (0 < stride)%nat ->
  (i < length N)%nat -> (nth i N 0 <= nth i K 0 / stride)%nat -> periodic_transpose_convolution None p cout K (length N) None stride x = Err EType.
Proof.
  intros p N K cin cout s i x Hx HN LK Hs Hi Hw. unfold periodic_transpose_convolution. replace (1 <=? length N)%nat with true by (symmetry; apply Nat.leb_le; lia). replace (length N <=? 3)%nat with true by (symmetry; apply Nat.leb_le; lia). cbn [andb negb].
  unfold periodic_conv_transpose_general. replace (s =? 0)%nat with false by (symmetry; apply Nat.eqb_neq; lia). cbv zeta.
  set (P := map (fun kernel_size => (kernel_size / s + 1, 0)%nat) K). assert (LP : length P = length N) by (unfold P; rewrite map_length; exact LK).
  rewrite (@apply_opt R _ x N None P LP). unfold tiles_of. set (L := repeat 1%nat (length N)). pose proof (tiled_one N HN) as HT. fold L in HT. assert (LL : length L = length N) by (unfold L; apply repeat_length).
  unfold apply_convolution. pose proof (@s2b_calc N L N HT R x cin Hx) as Es. set (t := mkarr _ _) in Es. rewrite Es. cbn [bind]. pose proof (@padded_start R x cin N L N HT t Hx Es) as Rp.
  rewrite (@halo_err R x t N L N cin P i HT Rp) by (try lia; left; unfold P; rewrite (nth_map' _ _ 0%nat (0, 0)%nat) by lia; cbn [fst]; lia). reflexivity.
Qed.
(* @ex *)
Lemma wide_transpose_refused_ex_lem : periodic_transpose_convolution None p33 3 [4; 3]%nat 2 None 1 x46 = Err EType.
Proof. apply (@wide_transpose_refused_lem p33 [4; 6]%nat [4; 3]%nat 1 3 1 0%nat x46 x46_cl); cbn; lia. Qed.
(* @prop C73 Transpose convolutions refuse a tile layout (not implemented) and a dilation rate other than one (value error). *)
Lemma transpose_refusals_lem : forall (p : params) (K : list nat) (cout d stride r : nat) (L : list nat) (x : arr R), (1 <= d <= 3)%nat ->
  periodic_transpose_convolution (Some L) p cout K d None stride x = Err ENotImpl /\ (r <> 1%nat -> periodic_transpose_convolution None p cout K d (Some r) stride x = Err EValue).
Proof.
  intros p K cout d s r L x Hd. split.
  - unfold periodic_transpose_convolution. replace (1 <=? d)%nat with true by (symmetry; apply Nat.leb_le; lia). replace (d <=? 3)%nat with true by (symmetry; apply Nat.leb_le; lia). reflexivity.
  - intros Hr. unfold periodic_transpose_convolution. replace (r =? 1)%nat with false by (symmetry; apply Nat.eqb_neq; exact Hr). reflexivity.
Qed.
(* @ex *)
Lemma transpose_refusals_ex_lem : periodic_transpose_convolution (Some [2; 3]%nat) p33 1 [3; 3]%nat 2 None 1 x46 = Err ENotImpl.
Proof. reflexivity. Qed.
