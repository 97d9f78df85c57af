(** * C73: periodic transpose convolutions *)
From Verif Require Import Prelude NdArr ArrayUtils_model Tiling_model Equations_model Towers_model TConv_model SpecTile SpecTower SpecTConv TilingProofs TilingProps TowerProps TowerMoreProps.
Set Implicit Arguments.
Local Open Scope Z_scope.

Lemma axis_arith (s N k ix t : Z) : 0 < s -> 0 < N -> 0 < k -> 0 <= t < k ->
  let pl := k / s + 1 in let q := (ix + (k - 1) / 2) mod (s * N) + s * pl + t - (k - 1) in let a := (ix + t - k / 2) mod (s * N) in
  q mod s = a mod s /\ 0 <= q /\ q / s < N + pl /\ (q / s - pl) mod N = a / s.
Proof.
  intros Hs HN Hk Ht pl q a. set (h := (k - 1) / 2) in *.
  assert (Hh : h - (k - 1) = - (k / 2)).
  { unfold h. pose proof (Z.div_mod (k - 1) 2 ltac:(lia)). pose proof (Z.mod_pos_bound (k - 1) 2 ltac:(lia)). pose proof (Z.div_mod k 2 ltac:(lia)). pose proof (Z.mod_pos_bound k 2 ltac:(lia)). lia. }
  assert (HsN : 0 < s * N) by nia.
  pose proof (Z.mod_pos_bound (ix + h) (s * N) HsN) as Hm. pose proof (Z.div_mod (ix + h) (s * N) ltac:(lia)) as DM.
  set (r := (ix + h) mod (s * N)) in *. set (c := (ix + h) / (s * N)) in *.
  assert (Hpl : k < s * pl) by (unfold pl; pose proof (Z.div_mod k s ltac:(lia)); pose proof (Z.mod_pos_bound k s ltac:(lia)); nia).
  assert (Eq : q = (ix + t - k / 2) + (pl - N * c) * s) by (unfold q; nia).
  assert (Ea : a = (ix + t - k / 2) mod s + s * (((ix + t - k / 2) / s) mod N)) by (unfold a; apply Z.rem_mul_r; lia).
  assert (Hq0 : 0 <= q) by (unfold q; lia).
  assert (HqN : q < s * (N + pl)) by (unfold q; lia).
  repeat split.
  - rewrite Eq, Z.mod_add by lia. rewrite Ea. rewrite Z.mul_comm, Z.mod_add by lia. rewrite Z.mod_mod by lia. reflexivity.
  - exact Hq0.
  - apply Z.div_lt_upper_bound; lia.
  - rewrite Eq, Z.div_add by lia. replace ((ix + t - k / 2) / s + (pl - N * c) - pl) with ((ix + t - k / 2) / s + (- c) * N) by ring. rewrite Z.mod_add by lia.
    rewrite Ea. rewrite (Z.mul_comm s), Z.div_add by lia. rewrite (Z.div_small ((ix + t - k / 2) mod s) s) by (apply Z.mod_pos_bound; lia). lia.
Qed.

Lemma asize_ones d : asize (repeat 1%nat d) = 1%nat.
Proof. unfold asize. induction d as [|d IH]; [reflexivity|]. cbn [repeat fold_right] in *. rewrite IH. reflexivity. Qed.
Lemma ones_flat d b : inb (repeat 1%nat d) b -> tflat (repeat 1%nat d) b = 0.
Proof.
  intros H. pose proof (@tflat_range _ _ H) as R. rewrite asize_ones in R. lia.
Qed.
Lemma ones_zero d : inb (repeat 1%nat d) (repeat 0 d).
Proof. induction d as [|d IH]; cbn [repeat inb]; [exact I|]. split; [lia | exact IH]. Qed.
Lemma rep0 i d : nth i (repeat 0 d) 0 = 0.
Proof. revert i; induction d as [|d IH]; intros [|i]; cbn; auto. Qed.

Lemma one_tile_conv (conv : arr R -> result (arr R)) (x : arr R) N cin P M' cout (Q : arr R -> Prop) : channels_last x N cin -> (1 <= length N <= 3)%nat -> length P = length N -> length M' = length N ->
  (forall i, (i < length N)%nat -> (fst (nth i P (0, 0)) <= nth i N 0 /\ snd (nth i P (0, 0)) <= nth i N 0)%nat) ->
  (forall t, shp t = 1%nat :: map (fun i => (nth i N 0 + fst (nth i P (0, 0)) + snd (nth i P (0, 0)))%nat) (seq 0 (length N)) ++ [cin] ->
     (forall j cc, inb (map (fun i => (nth i N 0 + fst (nth i P (0, 0)) + snd (nth i P (0, 0)))%nat) (seq 0 (length N))) j -> 0 <= cc < Z.of_nat cin ->
        get t (0 :: j ++ [cc]) = get x (map (fun i => (nth i j 0 - Z.of_nat (fst (nth i P (0, 0)%nat))) mod Z.of_nat (nth i N 0%nat)) (seq 0 (length N)) ++ [cc])) ->
     exists z, conv t = Ok z /\ shp z = 1%nat :: M' ++ [cout] /\ Q z) ->
  exists y z, apply_convolution conv x None P = Ok y /\ shp y = M' ++ [cout] /\ Q z /\ forall j o, inb (M' ++ [cout]) (j ++ [o]) -> get y (j ++ [o]) = get z (0 :: j ++ [o]).
Proof.
  intros Hx HN LP LM HB HC. rewrite (@apply_opt R conv x N None P LP). unfold tiles_of. set (L := repeat 1%nat (length N)). pose proof (tiled_one N HN) as HT. fold L in HT.
  assert (LL : length L = length N) by (unfold L; apply repeat_length).
  assert (EA : asize L = 1%nat) by apply asize_ones.
  unfold apply_convolution. pose proof (@s2b_calc N L N HT R x cin Hx) as Es. set (t := mkarr _ _) in Es. rewrite Es. cbn [bind]. pose proof (@padded_start R x cin N L N HT t Hx Es) as Rp.
  destruct (@halo_spec R x t N L N cin P HT Rp) as (t' & E' & S' & V'); [lia | intros i Hi; apply HB; lia |]. rewrite E'. cbn [bind].
  unfold padM in S', V'. rewrite EA, LL in S'. rewrite LL in V'.
  destruct (HC t' S') as (z & Ez & Sz & Qz).
  { intros j cc Hj Hc. pose proof (V' (repeat 0 (length N)) j cc) as V0. unfold L in V0 at 1. specialize (V0 (ones_zero _) Hj Hc).
    assert (E0 : tflat L (repeat 0 (length N)) = 0) by (apply ones_flat; apply ones_zero). rewrite E0 in V0. rewrite V0. do 2 f_equal. unfold cellF. rewrite LL. apply map_ext_in. intros i Hi.
    rewrite rep0. f_equal. }
  rewrite Ez. cbn [bind]. pose proof (tiled_one M' ltac:(lia)) as HT'. rewrite LM in HT'. fold L in HT'.
  rewrite (@b2s_calc M' L M' HT' R z cout) by (rewrite EA; exact Sz). eexists; exists z. split; [reflexivity|]. split; [reflexivity|]. split; [exact Qz|]. cbn [get shp].
  intros j o Hin. destruct (inb_last _ _ _ Hin) as (j' & o' & Ej & Hj & Ho). apply app_inj_tail in Ej. destruct Ej as (<- & <-). pose proof (inb_length _ _ Hj) as Lj.
  rewrite LL. rewrite firstn_pre, nth_post by lia. destruct (@div_inb M' L M' HT' j Hj) as (D1 & D2 & D3).
  assert (E0 : tflat L (div_ix M' j) = 0) by (apply ones_flat; exact D1). rewrite E0. do 3 f_equal.
  apply (list_ext_nth 0); [rewrite mod_ix_length; lia|]. intros i Hi. rewrite mod_ix_length in Hi by lia. rewrite mod_ix_nth by lia. apply Z.mod_small. apply (@inb_nth _ _ i Hj); lia.
Qed.

Lemma span1 k : (0 < k)%nat -> span 1 k = k. Proof. unfold span. lia. Qed.
Lemma mulz1 l : map (Z.mul (Z.of_nat 1)) l = l.
Proof. rewrite <- (map_id l) at 2. apply map_ext. intros z. change (Z.of_nat 1) with 1. ring. Qed.
Lemma fits_pos s N K : kernel_fits s N K -> forall i, (i < length N)%nat -> (0 < nth i N 0)%nat.
Proof. intros (_ & _ & _ & H) i Hi. specialize (H i Hi). lia. Qed.

(* @prop C73 A periodic transpose convolution of stride s refines the grid by s and computes the exact circular correlation, at every fine cell, of the input put at every s-th fine cell (zero in between) with the weights, centred with the larger half before the centre, plus the bias; for one to three axes, every kernel and stride with kernel // stride < axis size. *)
Lemma transpose_layer_exact_lem : forall (p : params) (N K : list nat) (cin cout stride : nat) (rate : option nat) (x : arr R), channels_last x N cin -> kernel_fits stride N K -> (rate = None \/ rate = Some 1%nat) ->
  exists y, periodic_transpose_convolution None p cout K (length N) rate stride x = Ok y /\ channels_last y (map (Nat.mul stride) N) cout /\
    forall ix o, inb (map (Nat.mul stride) N ++ [cout]) (ix ++ [o]) ->
      get y (ix ++ [o]) = dilated_correlation (map (Nat.mul stride) N) K cin 1 1 (swap_channels (length N) (weights p)) (bias p) (spread_out stride N cin x) ix o.
Proof.
  intros p N K cin cout stride rate x Hx HF Hrate. pose proof (fits_pos HF) as HN. pose proof HF as ((H1 & H3) & LK & Hs & HK).
  unfold periodic_transpose_convolution. replace (match rate with Some r => negb (r =? 1)%nat | None => false end) with false by (destruct Hrate as [-> | ->]; reflexivity).
  replace (1 <=? length N)%nat with true by (symmetry; apply Nat.leb_le; lia). replace (length N <=? 3)%nat with true by (symmetry; apply Nat.leb_le; lia). cbn [andb negb].
  unfold periodic_conv_transpose_general. replace (stride =? 0)%nat with false by (symmetry; apply Nat.eqb_neq; lia). cbv zeta.
  set (P := map (fun kernel_size => (kernel_size / stride + 1, 0)%nat) K). assert (LP : length P = length N) by (unfold P; rewrite map_length; exact LK).
  assert (EP : forall i, (i < length N)%nat -> nth i P (0, 0)%nat = (nth i K 0 / stride + 1, 0)%nat) by (intros i Hi; unfold P; rewrite (nth_map' _ _ 0%nat (0, 0)%nat) by lia; reflexivity).
  set (pl := fun i => (nth i K 0 / stride + 1)%nat).
  set (M' := map (fun i => ((nth i N 0 + pl i) * stride + (nth i K 0 - stride))%nat) (seq 0 (length N))). assert (LM : length M' = length N) by (unfold M'; rewrite map_length, seq_length; reflexivity).
  set (val := fun (j : list Z) (o : Z) => (bias p o + asum (K ++ [cin]) (fun tx => let q := fun i => (nth i j 0 + nth i tx 0 - (Z.of_nat (nth i K 0%nat) - 1))%Z in
     if forallb (fun i => (q i mod Z.of_nat stride =? 0) && (0 <=? q i) && (q i / Z.of_nat stride <? Z.of_nat (nth i N 0%nat + pl i)))%Z (seq 0 (length N))
     then get x (map (fun i => ((q i / Z.of_nat stride - Z.of_nat (pl i)) mod Z.of_nat (nth i N 0%nat))%Z) (seq 0 (length N)) ++ [nth (length N) tx 0%Z]) * weights p (firstn (length N) tx ++ [o; nth (length N) tx 0%Z]) else 0))%R).
  destruct (@one_tile_conv (hk_conv_transpose (length N) p cout K stride) x N cin P M' cout (fun z => forall j o, inb M' j -> 0 <= o < Z.of_nat cout -> get z (0 :: j ++ [o]) = val j o) Hx (conj H1 H3) LP LM) as (y & z & Ey & Sy & Vz & Vy).
  { intros i Hi. rewrite EP by exact Hi. cbn [fst snd]. specialize (HK i Hi). lia. }
  { intros t St Vt. unfold hk_conv_transpose, ndim. rewrite LK, Nat.eqb_refl, St. cbn [negb length]. rewrite app_length, map_length, seq_length. cbn [length]. replace (S (length N + 1)) with (length N + 2)%nat by lia. rewrite Nat.eqb_refl. cbn [negb orb].
    replace (stride =? 0)%nat with false by (symmetry; apply Nat.eqb_neq; lia). cbn [orb].
    replace (existsb (Nat.eqb 0) K) with false.
    2:{ symmetry. apply not_true_is_false. intros H. apply existsb_exists in H. destruct H as (k & Hin & Ek). apply Nat.eqb_eq in Ek. destruct (In_nth _ _ 0%nat Hin) as (i & Hi & En). specialize (HK i ltac:(lia)). lia. }
    cbn [nth tl].
    set (M := map (fun i => (nth i N 0 + fst (nth i P (0, 0)) + snd (nth i P (0, 0)))%nat) (seq 0 (length N))) in *.
    assert (LMM : length M = length N) by (unfold M; rewrite map_length, seq_length; reflexivity).
    assert (EM : forall i, (i < length N)%nat -> nth i M 0%nat = (nth i N 0 + pl i)%nat).
    { intros i Hi. unfold M. rewrite (@nth_map_seq _ (fun i => (nth i N 0 + fst (nth i P (0, 0)) + snd (nth i P (0, 0)))%nat)) by exact Hi. rewrite EP by exact Hi. cbn [fst snd]. unfold pl. lia. }
    rewrite (@nth_post _ M cin [] _ 0%nat LMM), (@firstn_pre _ M [cin] _ LMM). eexists; split; [reflexivity|]. cbn [shp get]. split.
    - do 2 f_equal. unfold M'. apply (list_ext_nth 0%nat); [rewrite !map_length, combine_length, seq_length; lia|]. intros i Hi. rewrite map_length, combine_length in Hi. rewrite (nth_map' _ _ (0, 0)%nat 0%nat) by (rewrite combine_length; exact Hi).
      rewrite combine_nth by lia. cbn [fst snd]. rewrite (@nth_map_seq _ (fun i => ((nth i N 0 + pl i) * stride + (nth i K 0 - stride))%nat)) by lia. rewrite EM by lia. reflexivity.
    - intros j o Hj Ho. pose proof (inb_length _ _ Hj) as Lj. rewrite LM in Lj. cbv zeta. cbn [nth tl]. rewrite (@firstn_pre _ j [o] _ Lj), (@nth_post _ j o [] _ 0 Lj). unfold val. f_equal. apply asum_ext. intros tx Htx.
      destruct (inb_last _ _ _ Htx) as (tt & cc & -> & Ht & Hc). pose proof (inb_length _ _ Ht) as Lt. cbv zeta.
      set (qf := fun i => nth i j 0 + nth i (tt ++ [cc]) 0 - (Z.of_nat (nth i K 0%nat) - 1)).
      assert (Eqn : forall i, (i < length N)%nat -> nth i (map qf (seq 0 (length N))) 0 = qf i) by (intros i Hi; apply (@nth_map_seq _ qf); exact Hi).
      change (map (fun i => nth i j 0 + nth i (tt ++ [cc]) 0 - (Z.of_nat (nth i K 0%nat) - 1)) (seq 0 (length N))) with (map qf (seq 0 (length N))).
      assert (Ef : forallb (fun i => (nth i (map qf (seq 0 (length N))) 0 mod Z.of_nat stride =? 0) && (0 <=? nth i (map qf (seq 0 (length N))) 0) && (nth i (map qf (seq 0 (length N))) 0 / Z.of_nat stride <? Z.of_nat (nth i M 0%nat))) (seq 0 (length N)) =
                   forallb (fun i => (qf i mod Z.of_nat stride =? 0) && (0 <=? qf i) && (qf i / Z.of_nat stride <? Z.of_nat (nth i N 0%nat + pl i))) (seq 0 (length N))).
      { assert (Hall : forall l, (forall i, In i l -> (i < length N)%nat) -> forallb (fun i => (nth i (map qf (seq 0 (length N))) 0 mod Z.of_nat stride =? 0) && (0 <=? nth i (map qf (seq 0 (length N))) 0) && (nth i (map qf (seq 0 (length N))) 0 / Z.of_nat stride <? Z.of_nat (nth i M 0%nat))) l =
                   forallb (fun i => (qf i mod Z.of_nat stride =? 0) && (0 <=? qf i) && (qf i / Z.of_nat stride <? Z.of_nat (nth i N 0%nat + pl i))) l).
        { induction l as [|i l IH]; intros Hl; [reflexivity|]. cbn [forallb]. rewrite IH by (intros; apply Hl; right; assumption). assert (Hi : (i < length N)%nat) by (apply Hl; left; reflexivity). rewrite (Eqn i Hi), (EM i Hi). reflexivity. }
        apply Hall. intros i Hi. apply in_seq in Hi. lia. }
      rewrite Ef.
      transitivity (if forallb (fun i => (qf i mod Z.of_nat stride =? 0) && (0 <=? qf i) && (qf i / Z.of_nat stride <? Z.of_nat (nth i N 0%nat + pl i)))%Z (seq 0 (length N))
        then get x (map (fun i => ((qf i / Z.of_nat stride - Z.of_nat (pl i)) mod Z.of_nat (nth i N 0%nat))%Z) (seq 0 (length N)) ++ [nth (length N) (tt ++ [cc]) 0%Z]) * weights p (firstn (length N) (tt ++ [cc]) ++ [o; nth (length N) (tt ++ [cc]) 0%Z]) else 0)%R; [|reflexivity].
      match goal with |- (if ?b then _ else _) = (if ?b' then _ else _) => change b' with b; destruct b eqn:EB end; [|reflexivity]. rewrite forallb_forall in EB.
      f_equal. rewrite Vt.
      + do 2 f_equal.
        apply map_ext_in. intros i Hi. apply in_seq in Hi. rewrite (@nth_map_seq _ (fun i => nth i (map qf (seq 0 (length N))) 0 / Z.of_nat stride)) by lia. rewrite Eqn by lia. rewrite EP by lia. reflexivity.
      + apply inb_intro; [rewrite map_length, seq_length; lia|]. intros i Hi. rewrite LMM in Hi. rewrite (@nth_map_seq _ (fun i => nth i (map qf (seq 0 (length N))) 0 / Z.of_nat stride)) by lia. rewrite Eqn by lia.
        specialize (EB i ltac:(apply in_seq; lia)). apply andb_prop in EB. destruct EB as (EB & E3). apply andb_prop in EB. destruct EB as (E1 & E2). apply Z.leb_le in E2. apply Z.ltb_lt in E3. rewrite EM by lia. split; [apply Z.div_pos; lia | exact E3].
      + rewrite (@nth_post _ tt cc [] _ 0) by lia. exact Hc. }
  rewrite Ey. cbn [bind]. eexists; split; [reflexivity|].
  assert (Exs : forall i, (i < length N)%nat -> nth i (shp x) 0%nat = nth i N 0%nat) by (intros i Hi; unfold channels_last in Hx; rewrite Hx; apply app_nth1; exact Hi).
  assert (EM' : forall i, (i < length N)%nat -> nth i (shp y) 0%nat = ((nth i N 0 + pl i) * stride + (nth i K 0 - stride))%nat).
  { intros i Hi. rewrite Sy, app_nth1 by lia. unfold M'. rewrite (@nth_map_seq _ (fun i => ((nth i N 0 + pl i) * stride + (nth i K 0 - stride))%nat)) by lia. reflexivity. }
  set (bounds := map (fun i => ((stride * fst (nth i P (0, 0)))%nat, (stride * (nth i (shp x) 0 + fst (nth i P (0, 0))))%nat)) (seq 0 (length K))).
  assert (LB : length bounds = length N) by (unfold bounds; rewrite map_length, seq_length; exact LK).
  assert (EB : forall i, (i < length N)%nat -> nth i bounds (0, 0)%nat = ((stride * pl i)%nat, (stride * (nth i N 0 + pl i))%nat)).
  { intros i Hi. unfold bounds. rewrite (@nth_map_seq _ (fun i => ((stride * fst (nth i P (0, 0)))%nat, (stride * (nth i (shp x) 0 + fst (nth i P (0, 0))))%nat))) by lia. rewrite EP, Exs by lia. reflexivity. }
  assert (Sk : skipn (length N) (shp y) = [cout]) by (rewrite Sy, skipn_app, skipn_all2 by lia; rewrite LM, Nat.sub_diag; reflexivity).
  assert (Ssl : shp (slice_axes bounds y) = map (Nat.mul stride) N ++ [cout]).
  { unfold slice_axes. cbn [shp]. rewrite LB, Sk. f_equal. apply (list_ext_nth 0%nat); [rewrite !map_length, seq_length; reflexivity|]. intros i Hi. rewrite map_length, seq_length in Hi.
    rewrite (@nth_map_seq _ (fun i => let '(a, b) := nth i bounds (0, 0)%nat in (Nat.min b (nth i (shp y) 0) - Nat.min a (nth i (shp y) 0))%nat)) by exact Hi. rewrite EB, EM' by exact Hi. rewrite nth_map_muln. nia. }
  unfold channels_last. split; [unfold roll_axes; cbn [shp]; exact Ssl|]. intros ix o Hin. destruct (inb_last _ _ _ Hin) as (j & cc & Ej & Hj & Hc). apply app_inj_tail in Ej. destruct Ej as (<- & <-).
  pose proof (inb_length _ _ Hj) as Lj. rewrite map_length in Lj.
  unfold roll_axes. cbn [get shp]. rewrite map_length, LK.
  assert (Skx : skipn (length N) (ix ++ [o]) = [o]) by (rewrite skipn_app, skipn_all2 by lia; replace (length N - length ix)%nat with 0%nat by lia; reflexivity). rewrite Skx.
  set (r := map (fun i => (nth i (ix ++ [o]) 0 - nth i (map (fun kernel_size => - ((Z.of_nat kernel_size - 1) / 2)) K) 0) mod Z.of_nat (nth i (shp (slice_axes bounds y)) 0%nat)) (seq 0 (length N))).
  assert (Lr : length r = length N) by (unfold r; rewrite map_length, seq_length; reflexivity).
  assert (Er : forall i, (i < length N)%nat -> nth i r 0 = (nth i ix 0 + (Z.of_nat (nth i K 0%nat) - 1) / 2) mod (Z.of_nat stride * Z.of_nat (nth i N 0%nat))).
  { intros i Hi. unfold r. rewrite (@nth_map_seq _ (fun i => (nth i (ix ++ [o]) 0 - nth i (map (fun kernel_size => - ((Z.of_nat kernel_size - 1) / 2)) K) 0) mod Z.of_nat (nth i (shp (slice_axes bounds y)) 0%nat))) by exact Hi.
    rewrite app_nth1 by lia. rewrite (nth_map' _ _ 0%nat 0) by lia. rewrite Ssl, app_nth1 by (rewrite map_length; lia). rewrite nth_map_muln. f_equal; lia. }
  unfold slice_axes. cbn [get]. rewrite LB. assert (Skr : skipn (length N) (r ++ [o]) = [o]) by (rewrite skipn_app, skipn_all2 by lia; rewrite Lr, Nat.sub_diag; reflexivity). rewrite Skr.
  set (jj := map (fun i => nth i (r ++ [o]) 0 + Z.of_nat (Nat.min (fst (nth i bounds (0, 0)%nat)) (nth i (shp y) 0%nat))) (seq 0 (length N))).
  assert (Ejj : forall i, (i < length N)%nat -> nth i jj 0 = (nth i ix 0 + (Z.of_nat (nth i K 0%nat) - 1) / 2) mod (Z.of_nat stride * Z.of_nat (nth i N 0%nat)) + Z.of_nat stride * (Z.of_nat (nth i K 0%nat) / Z.of_nat stride + 1)).
  { intros i Hi. unfold jj. rewrite (@nth_map_seq _ (fun i => nth i (r ++ [o]) 0 + Z.of_nat (Nat.min (fst (nth i bounds (0, 0)%nat)) (nth i (shp y) 0%nat)))) by exact Hi. rewrite app_nth1 by lia. rewrite Er, EB, EM' by exact Hi. cbn [fst].
    f_equal. rewrite Nat.min_l by nia. unfold pl. rewrite Nat2Z.inj_mul, Nat2Z.inj_add, Nat2Z.inj_div. lia. }
  assert (Hjj : inb M' jj).
  { apply inb_intro; [unfold jj; rewrite map_length, seq_length; lia|]. intros i Hi. rewrite LM in Hi. rewrite Ejj by exact Hi. assert (HM : nth i M' 0%nat = nth i (shp y) 0%nat) by (rewrite Sy, app_nth1 by lia; reflexivity). rewrite HM, EM' by exact Hi.
    specialize (HN i Hi). pose proof (Z.mod_pos_bound (nth i ix 0 + (Z.of_nat (nth i K 0%nat) - 1) / 2) (Z.of_nat stride * Z.of_nat (nth i N 0%nat)) ltac:(nia)).
    unfold pl. rewrite Nat2Z.inj_add, Nat2Z.inj_mul, !Nat2Z.inj_add, Nat2Z.inj_div. pose proof (Z.div_pos (Z.of_nat (nth i K 0%nat)) (Z.of_nat stride) ltac:(lia) ltac:(lia)). nia. }
  rewrite Vy by (apply inb_app_intro; [exact Hjj | cbn [inb]; auto]). rewrite (Vz jj o Hjj Hc). unfold val, dilated_correlation. f_equal. apply asum_ext. intros tx Htx. cbv zeta.
  destruct (inb_last _ _ _ Htx) as (tt & cc & -> & Ht & Hcc). pose proof (inb_length _ _ Ht) as Lt. rewrite LK in Lt. rewrite LK. rewrite (@nth_post _ tt cc [] _ 0 Lt), (@firstn_pre _ tt [cc] _ Lt). rewrite !mulz1.
  assert (Arith : forall i, (i < length N)%nat -> let q := nth i jj 0 + nth i (tt ++ [cc]) 0 - (Z.of_nat (nth i K 0%nat) - 1) in let a := nth i (cell_at (map (Nat.mul stride) N) (map (fun k => (span 1 k / 2)%nat) K) ix tt) 0 in
     q mod Z.of_nat stride = a mod Z.of_nat stride /\ 0 <= q /\ q / Z.of_nat stride < Z.of_nat (nth i N 0 + pl i)%nat /\ (q / Z.of_nat stride - Z.of_nat (pl i)) mod Z.of_nat (nth i N 0%nat) = a / Z.of_nat stride).
  { intros i Hi. cbv zeta. rewrite Ejj by exact Hi. rewrite app_nth1 by lia. rewrite cell_at_nth by (rewrite map_length; exact Hi). rewrite nth_map_muln. rewrite (nth_map' _ _ 0%nat 0%nat) by lia. specialize (HK i Hi). rewrite span1 by lia.
    pose proof (@inb_nth _ _ i Ht ltac:(lia)) as Rt. specialize (HN i Hi). pose proof (@axis_arith (Z.of_nat stride) (Z.of_nat (nth i N 0%nat)) (Z.of_nat (nth i K 0%nat)) (nth i ix 0) (nth i tt 0) ltac:(lia) ltac:(lia) ltac:(lia) Rt) as A. cbv zeta in A.
    rewrite Nat2Z.inj_mul. rewrite Nat2Z.inj_add. unfold pl. rewrite Nat2Z.inj_add. rewrite !Nat2Z.inj_div. exact A. }
  unfold spread_out. cbn [get]. set (ca := cell_at (map (Nat.mul stride) N) (map (fun k => (span 1 k / 2)%nat) K) ix tt) in *.
  assert (Lca : length ca = length N) by (unfold ca; rewrite cell_at_len, map_length; reflexivity).
  assert (Ef : forallb (fun i => ((nth i jj 0 + nth i (tt ++ [cc]) 0 - (Z.of_nat (nth i K 0%nat) - 1)) mod Z.of_nat stride =? 0) && (0 <=? nth i jj 0 + nth i (tt ++ [cc]) 0 - (Z.of_nat (nth i K 0%nat) - 1)) &&
                        ((nth i jj 0 + nth i (tt ++ [cc]) 0 - (Z.of_nat (nth i K 0%nat) - 1)) / Z.of_nat stride <? Z.of_nat (nth i N 0 + pl i)%nat)) (seq 0 (length N)) =
               forallb (fun i => nth i (ca ++ [cc]) 0 mod Z.of_nat stride =? 0) (seq 0 (length N))).
  { assert (Hall : forall l, (forall i, In i l -> (i < length N)%nat) -> forallb (fun i => ((nth i jj 0 + nth i (tt ++ [cc]) 0 - (Z.of_nat (nth i K 0%nat) - 1)) mod Z.of_nat stride =? 0) && (0 <=? nth i jj 0 + nth i (tt ++ [cc]) 0 - (Z.of_nat (nth i K 0%nat) - 1)) &&
                        ((nth i jj 0 + nth i (tt ++ [cc]) 0 - (Z.of_nat (nth i K 0%nat) - 1)) / Z.of_nat stride <? Z.of_nat (nth i N 0 + pl i)%nat)) l = forallb (fun i => nth i (ca ++ [cc]) 0 mod Z.of_nat stride =? 0) l).
    { induction l as [|i l IH]; intros Hl; [reflexivity|]. cbn [forallb]. rewrite IH by (intros; apply Hl; right; assumption). assert (Hi : (i < length N)%nat) by (apply Hl; left; reflexivity). f_equal.
      destruct (Arith i Hi) as (A1 & A2 & A3 & _). rewrite (@app_nth1 _ ca) by lia. rewrite A1. apply Z.leb_le in A2. apply Z.ltb_lt in A3. rewrite A2, A3, !andb_true_r. reflexivity. }
    apply Hall. intros i Hi. apply in_seq in Hi. lia. }
  rewrite Ef. match goal with |- (if ?b then _ else _) = ((if ?b' then _ else _) * _)%R => change b' with b; destruct b end; [|ring]. rewrite (@nth_post _ ca cc [] _ 0 Lca). f_equal.
  - do 2 f_equal. apply map_ext_in. intros i Hi. apply in_seq in Hi. destruct (Arith i ltac:(lia)) as (_ & _ & _ & A4). rewrite A4. rewrite app_nth1 by lia. reflexivity.
  - unfold swap_channels. rewrite <- app_assoc. cbn [app]. rewrite (@firstn_pre _ tt _ _ Lt), (@nth_post _ tt cc [o] _ 0 Lt). f_equal. f_equal. f_equal. rewrite app_nth2 by lia. replace (S (length N) - length tt)%nat with 1%nat by lia. reflexivity.
Qed.
Lemma fits46 : kernel_fits 2 [4; 6]%nat [3; 5]%nat.
Proof. split; [cbn; lia|]. split; [reflexivity|]. split; [lia|]. intros [|[|i]] Hi; cbn in *; lia. Qed.
(* @ex *)
Lemma transpose_layer_exact_ex_lem : channels_last x46 [4; 6]%nat 1 /\ kernel_fits 2 [4; 6]%nat [3; 5]%nat.
Proof. split; [exact x46_cl | exact fits46]. Qed.
