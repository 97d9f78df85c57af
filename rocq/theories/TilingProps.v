(** * Tiling: halo exchange, convolutions, patches (C45) *)
From Verif Require Import Prelude NdArr ArrayUtils_model ArrayUtilsProps ResizeProps Tiling_model SpecTile TilingProofs.
Set Implicit Arguments.
Local Open Scope Z_scope.

Lemma cellF_cell N L m pad : tiled_by N L m -> forall b j, cellF N L m (fun i => nth i pad 0%nat) b j = cell_of N m pad b j.
Proof. intros HT b j. unfold cellF, cell_of. rewrite (tb_LN HT). reflexivity. Qed.
Lemma cellF_ext N L m f g b j : (forall i, (i < length L)%nat -> f i = g i) -> cellF N L m f b j = cellF N L m g b j.
Proof. intros H. apply cellF_eq. intros i Hi. rewrite H by exact Hi. reflexivity. Qed.
Lemma b2s_s2b A (x t : arr A) N L m c : tiled_by N L m -> shp x = N ++ [c] -> space_to_batch x L = Ok t -> exists y, batch_to_space t L = Ok y /\ aeq y x.
Proof.
  intros HT Hx E. rewrite (@s2b_calc N L m HT A x c Hx) in E. injection E as <-. rewrite (@b2s_calc N L m HT A _ c) by reflexivity. eexists; split; [reflexivity|]. split; [cbn [shp]; congruence|].
  cbn [shp get nth tl]. intros ix Hix. destruct (inb_last _ _ _ Hix) as (j & cc & -> & Hj & Hc). pose proof (inb_length _ _ Hj) as Lj. rewrite (tb_LN HT) in Lj.
  destruct (@div_inb N L m HT j Hj) as (D1 & D2 & D3). rewrite firstn_pre by exact Lj. rewrite nth_post by exact Lj. rewrite tunflat_flat by exact D1.
  assert (Lm : length (mod_ix m j) = length L) by (rewrite mod_ix_length; rewrite (tb_Lm HT); auto). rewrite firstn_pre by exact Lm. rewrite nth_post by exact Lm. rewrite D3. reflexivity.
Qed.
Lemma s2b_b2s A (x t : arr A) N L m c : tiled_by N L m -> shp t = asize L :: m ++ [c] -> batch_to_space t L = Ok x -> shp x = N ++ [c] /\ exists y, space_to_batch x L = Ok y /\ aeq y t.
Proof.
  intros HT Ht E. rewrite (@b2s_calc N L m HT A t c Ht) in E. injection E as <-. split; [reflexivity|]. rewrite (@s2b_calc N L m HT A _ c) by reflexivity. eexists; split; [reflexivity|]. split; [cbn [shp]; congruence|].
  cbn [shp get]. intros ix Hix. destruct (inb_batch _ _ _ _ Hix) as (k & j & cc & -> & Hk & Hj & Hc). pose proof (inb_length _ _ Hj) as Lj. rewrite (tb_Lm HT) in Lj. cbn [nth tl].
  rewrite (@firstn_pre Z j [cc] _ Lj), (@nth_post Z j cc [] _ 0 Lj). pose proof (@tunflat_inb L k Hk) as Hb. pose proof (@block_inb N L m HT _ _ Hb Hj) as HB. pose proof (inb_length _ _ HB) as LB. rewrite (tb_LN HT) in LB.
  rewrite firstn_pre by exact LB. rewrite nth_post by exact LB. destruct (@block_div N L m HT _ _ Hb Hj) as (-> & ->). rewrite tflat_unflat by exact Hk. reflexivity.
Qed.
Lemma b2s_ok A (t : arr A) N L m c : tiled_by N L m -> shp t = asize L :: m ++ [c] -> exists x, batch_to_space t L = Ok x.
Proof. intros HT Ht. rewrite (@b2s_calc N L m HT A t c Ht). eauto. Qed.
Lemma padM_0 L m : length m = length L -> padM L m (fun _ => 0%nat) (fun _ => 0%nat) = m.
Proof. intros H. apply (list_ext_nth 0%nat); [rewrite padM_length; auto|]. intros i Hi. rewrite padM_length in Hi. rewrite padM_nth by exact Hi. lia. Qed.
Lemma rep_aeq A (x : arr A) c N L m pl pr t t' : padded_rep x c N L m pl pr t -> aeq t' t -> padded_rep x c N L m pl pr t'.
Proof.
  intros (S1 & V1) (S2 & V2). split; [congruence|]. intros b j cc Hb Hj Hc. rewrite V2; [apply V1; auto|]. rewrite S2, S1. cbn [inb]. split; [apply tflat_range; exact Hb|]. apply inb_app_intro; [exact Hj|]. cbn [inb]. auto.
Qed.
Lemma b2s_rep A (x t : arr A) N L m c : tiled_by N L m -> shp t = asize L :: m ++ [c] -> batch_to_space t L = Ok x -> padded_rep x c N L m (fun _ => 0%nat) (fun _ => 0%nat) t.
Proof.
  intros HT Ht E. destruct (@s2b_b2s A x t N L m c HT Ht E) as (Sx & y & Ey & Ay). apply rep_aeq with y; [eapply padded_start; eauto|]. destruct Ay as (A1 & A2). split; [congruence|]. intros ix Hix. symmetry. apply A2. rewrite A1. exact Hix.
Qed.

(** ** the loop over axes *)
Lemma halo_bad A (x : arr A) c N L m pl pr t ax l r : tiled_by N L m -> padded_rep x c N L m pl pr t -> (ax < length L)%nat -> pl ax = 0%nat -> pr ax = 0%nat ->
  (nth ax m 0 < l \/ nth ax m 0 < r)%nat -> halo_pad_1d t L ax (l, r) = Err EType.
Proof.
  intros HT Ht Hax Hpl Hpr Hbad. pose proof Ht as (St & Vt).
  assert (Nax : nth (ax + 1) (shp t) 0%nat = nth ax m 0%nat).
  { rewrite St, Nat.add_1_r. cbn [nth]. rewrite app_nth1 by (rewrite padM_length; exact Hax). rewrite padM_nth by exact Hax. lia. }
  unfold halo_pad_1d. cbv beta iota zeta. rewrite Nax. destruct (Nat.eqb_spec l 0) as [->|Hl0].
  - cbn [bind]. destruct (Nat.eqb_spec r 0) as [->|Hr0]; [lia|]. unfold dynamic_slice_in_dim. rewrite Nax. replace (nth ax m 0 <? r)%nat with true by (symmetry; apply Nat.ltb_lt; lia). reflexivity.
  - destruct (Nat.le_gt_cases l (nth ax m 0%nat)) as [Hle|Hgt].
    + destruct (@rolled_piece A x c N L m HT pl pr t (Z.of_nat (nth ax m 0%nat) - Z.of_nat l) l ax 1 Ht Hax Hpl Hpr Hle) as (w & Ew & _); [right; reflexivity|].
      destruct (dynamic_slice_in_dim t (Z.of_nat (nth ax m 0%nat) - Z.of_nat l) l (ax + 1)) as [y|e]; [|discriminate]. cbn [bind] in Ew |- *. rewrite Ew. cbn [bind].
      destruct (Nat.eqb_spec r 0) as [->|Hr0]; [lia|]. unfold dynamic_slice_in_dim. rewrite Nax. replace (nth ax m 0 <? r)%nat with true by (symmetry; apply Nat.ltb_lt; lia). reflexivity.
    + unfold dynamic_slice_in_dim at 1. rewrite Nax. replace (nth ax m 0 <? l)%nat with true by (symmetry; apply Nat.ltb_lt; lia). reflexivity.
Qed.
Lemma rep_ext A (x : arr A) c N L m pl pr pl' pr' t : (forall i, (i < length L)%nat -> pl i = pl' i /\ pr i = pr' i) -> padded_rep x c N L m pl pr t -> padded_rep x c N L m pl' pr' t.
Proof.
  intros H (S & V). assert (E : padM L m pl pr = padM L m pl' pr').
  { unfold padM. apply map_ext_in. intros i Hi. apply in_seq in Hi. destruct (H i ltac:(lia)) as (-> & ->). reflexivity. }
  split; [congruence|]. rewrite <- E. intros b j cc Hb Hj Hc. rewrite V by auto. do 2 f_equal. apply cellF_ext. intros i Hi. apply H. exact Hi.
Qed.
Lemma halo_fold A (x : arr A) c N L m : tiled_by N L m -> forall Q k t pl pr, (length Q + k = length L)%nat -> padded_rep x c N L m pl pr t -> (forall i, (k <= i)%nat -> pl i = 0%nat /\ pr i = 0%nat) ->
  (forall i, (i < length Q)%nat -> (fst (nth i Q (0, 0)) <= nth (k + i) m 0 /\ snd (nth i Q (0, 0)) <= nth (k + i) m 0)%nat) ->
  exists t', foldM (fun out ap => halo_pad_1d out L (fst ap) (snd ap)) t (combine (seq k (length Q)) Q) = Ok t' /\
    padded_rep x c N L m (fun i => if (i <? k)%nat then pl i else fst (nth (i - k) Q (0, 0)%nat)) (fun i => if (i <? k)%nat then pr i else snd (nth (i - k) Q (0, 0)%nat)) t'.
Proof.
  intros HT. induction Q as [|(l, r) Q IH]; intros k t pl pr HL Ht H0 HQ.
  - exists t. split; [reflexivity|]. eapply rep_ext; [|exact Ht]. intros i Hi. cbn [length] in HL. replace (i <? k)%nat with true by (symmetry; apply Nat.ltb_lt; lia). auto.
  - cbn [length] in HL. destruct (H0 k ltac:(lia)) as (Z1 & Z2). destruct (HQ 0%nat ltac:(cbn [length]; lia)) as (B1 & B2). cbn [nth fst snd] in B1, B2. rewrite Nat.add_0_r in B1, B2.
    destruct (@halo_step A x c N L m HT pl pr t k l r Ht ltac:(lia) Z1 Z2 B1 B2) as (t1 & E1 & R1).
    destruct (IH (S k) t1 _ _ ltac:(lia) R1) as (t' & E' & R').
    + intros i Hi. replace (i =? k)%nat with false by (symmetry; apply Nat.eqb_neq; lia). apply H0. lia.
    + intros i Hi. pose proof (HQ (S i) ltac:(cbn [length]; lia)) as B. cbn [nth] in B. replace (S k + i)%nat with (k + S i)%nat by lia. exact B.
    + exists t'. split; [cbn [length seq combine foldM fst snd]; rewrite E1; cbn [bind]; exact E'|]. eapply rep_ext; [|exact R']. intros i Hi. cbv beta.
      destruct (Nat.ltb_spec i (S k)) as [H1|H1].
      * destruct (Nat.eqb_spec i k) as [->|Hne].
        -- rewrite Nat.ltb_irrefl, Nat.sub_diag. auto.
        -- replace (i <? k)%nat with true by (symmetry; apply Nat.ltb_lt; lia). auto.
      * replace (i <? k)%nat with false by (symmetry; apply Nat.ltb_ge; lia). replace (i - k)%nat with (S (i - S k)) by lia. auto.
Qed.
Lemma halo_fold_bad A (x : arr A) c N L m : tiled_by N L m -> forall Q k t pl pr, (length Q + k = length L)%nat -> padded_rep x c N L m pl pr t -> (forall i, (k <= i)%nat -> pl i = 0%nat /\ pr i = 0%nat) ->
  (exists i, (i < length Q)%nat /\ (nth (k + i) m 0 < fst (nth i Q (0, 0)) \/ nth (k + i) m 0 < snd (nth i Q (0, 0)))%nat) ->
  foldM (fun out ap => halo_pad_1d out L (fst ap) (snd ap)) t (combine (seq k (length Q)) Q) = Err EType.
Proof.
  intros HT. induction Q as [|(l, r) Q IH]; intros k t pl pr HL Ht H0 (i0 & Hi0 & HB); [cbn in Hi0; lia|].
  cbn [length] in HL. destruct (H0 k ltac:(lia)) as (Z1 & Z2). cbn [length seq combine foldM fst snd].
  destruct (Nat.le_gt_cases l (nth k m 0%nat)) as [Hl|Hl]; [destruct (Nat.le_gt_cases r (nth k m 0%nat)) as [Hr|Hr]|].
  - destruct (@halo_step A x c N L m HT pl pr t k l r Ht ltac:(lia) Z1 Z2 Hl Hr) as (t1 & E1 & R1). rewrite E1. cbn [bind]. apply (IH (S k) t1 _ _ ltac:(lia) R1).
    + intros i Hi. replace (i =? k)%nat with false by (symmetry; apply Nat.eqb_neq; lia). apply H0. lia.
    + destruct i0 as [|i0]; [rewrite Nat.add_0_r in HB; cbn [nth fst snd] in HB; lia|]. exists i0. cbn [length nth] in *. replace (S k + i0)%nat with (k + S i0)%nat by lia. split; [lia | exact HB].
  - rewrite (@halo_bad A x c N L m pl pr t k l r HT Ht ltac:(lia) Z1 Z2) by lia. reflexivity.
  - rewrite (@halo_bad A x c N L m pl pr t k l r HT Ht ltac:(lia) Z1 Z2) by lia. reflexivity.
Qed.
Lemma verify_ok A (t : arr A) L m c : length m = length L -> shp t = asize L :: m ++ [c] -> verify_layout t L = Ok tt.
Proof.
  intros Lm Ht. unfold verify_layout, ndim. rewrite Ht. cbn [length nth]. rewrite app_length, Lm. cbn [length]. replace (S (length L + 1)) with (length L + 2)%nat by lia. rewrite !Nat.eqb_refl. reflexivity.
Qed.
Lemma halo_spec A (x t : arr A) N L m c P : tiled_by N L m -> padded_rep x c N L m (fun _ => 0%nat) (fun _ => 0%nat) t -> length P = length L ->
  (forall i, (i < length L)%nat -> (fst (nth i P (0, 0)) <= nth i m 0 /\ snd (nth i P (0, 0)) <= nth i m 0)%nat) ->
  exists t', halo_exchange_pad t L P = Ok t' /\ padded_rep x c N L m (fun i => fst (nth i P (0, 0)%nat)) (fun i => snd (nth i P (0, 0)%nat)) t'.
Proof.
  intros HT Ht HP HB. unfold halo_exchange_pad. rewrite (@verify_ok A t L m c) by (try apply (tb_Lm HT); destruct Ht as (S & _); rewrite padM_0 in S by apply (tb_Lm HT); exact S). cbn [bind]. rewrite HP, Nat.eqb_refl. cbn [negb]. rewrite <- HP.
  destruct (@halo_fold A x c N L m HT P 0%nat t _ _ ltac:(lia) Ht) as (t' & E & R); [auto | rewrite HP; exact HB |]. exists t'. split; [exact E|]. eapply rep_ext; [|exact R]. intros i Hi. cbn [Nat.ltb Nat.leb]. rewrite Nat.sub_0_r. auto.
Qed.
Lemma halo_err A (x t : arr A) N L m c P i : tiled_by N L m -> padded_rep x c N L m (fun _ => 0%nat) (fun _ => 0%nat) t -> length P = length L ->
  (i < length L)%nat -> (nth i m 0 < fst (nth i P (0, 0)) \/ nth i m 0 < snd (nth i P (0, 0)))%nat -> halo_exchange_pad t L P = Err EType.
Proof.
  intros HT Ht HP Hi HB. unfold halo_exchange_pad. rewrite (@verify_ok A t L m c) by (try apply (tb_Lm HT); destruct Ht as (S & _); rewrite padM_0 in S by apply (tb_Lm HT); exact S). cbn [bind]. rewrite HP, Nat.eqb_refl. cbn [negb]. rewrite <- HP.
  eapply (@halo_fold_bad A x c N L m HT P 0%nat t); [lia | exact Ht | auto |]. exists i. split; [lia | exact HB].
Qed.

(* @prop C45 Splitting a periodic array into tiles and putting the tiles back changes nothing: when the layout divides the array, tile b holds at position j the cell b * tile size + j, and batch_to_space undoes space_to_batch. *)
Lemma tiles_are_blocks_lem : forall A (x : arr A) N L m c, channels_last x N c -> tiled_by N L m ->
  exists t, space_to_batch x L = Ok t /\ shp t = fold_right Nat.mul 1%nat L :: m ++ [c] /\
    (forall b j cc, inb L b -> inb m j -> 0 <= cc < Z.of_nat c -> get t (tile_number L b :: j ++ [cc]) = get x (cell_of N m (repeat 0%nat (length N)) b j ++ [cc])) /\
    exists y, batch_to_space t L = Ok y /\ aeq y x.
Proof.
  intros A x N L m c Hx HT. pose proof (@s2b_calc N L m HT A x c Hx) as E. set (t := mkarr _ _) in E. exists t. split; [exact E|]. split; [reflexivity|]. split; [|exact (@b2s_s2b A x t N L m c HT Hx E)].
  pose proof (@padded_start A x c N L m HT t Hx E) as (_ & V). rewrite padM_0 in V by apply (tb_Lm HT). intros b j cc Hb Hj Hc. rewrite tile_number_flat, V by auto. rewrite <- (@cellF_cell N L m _ HT). do 2 f_equal. apply cellF_ext. intros i Hi. rewrite nth_repeat. reflexivity.
Qed.
(* @prop C45 Putting tiles together and splitting the result into tiles again gives back the tiles. *)
Lemma tiles_back_and_forth_lem : forall A (t : arr A) N L m c, tiled_by N L m -> shp t = fold_right Nat.mul 1%nat L :: m ++ [c] ->
  exists x, batch_to_space t L = Ok x /\ channels_last x N c /\ exists y, space_to_batch x L = Ok y /\ aeq y t.
Proof.
  intros A t N L m c HT Ht. destruct (@b2s_ok A t N L m c HT Ht) as (x & E). exists x. split; [exact E|]. exact (@s2b_b2s A x t N L m c HT Ht E).
Qed.
(* @prop C45 A layout that does not divide the array is refused. *)
Lemma bad_layout_refused_lem : forall A (x : arr A) N L c i, channels_last x N c -> (1 <= length L <= 3)%nat -> length N = length L -> Forall (fun l => (0 < l)%nat) L ->
  (i < length L)%nat -> ~ Nat.divide (nth i L 0%nat) (nth i N 0%nat) -> space_to_batch x L = Err EShape.
Proof.
  intros A x N L c i Hx HL LN HP Hi Hd. unfold channels_last in Hx. unfold space_to_batch.
  assert (E1 : layout_ndim_ok L = true) by (unfold layout_ndim_ok; apply andb_true_intro; split; apply Nat.leb_le; lia). rewrite E1. cbn [negb]. unfold ndim. rewrite Hx, app_length, LN. cbn [length]. rewrite Nat.eqb_refl. cbn [negb].
  replace (existsb _ L) with false.
  2:{ symmetry. apply not_true_is_false. intros H. apply existsb_exists in H. destruct H as (l & Hin & E). apply Nat.eqb_eq in E. subst. rewrite Forall_forall in HP. apply HP in Hin. lia. }
  rewrite firstn_pre by exact LN. replace (forallb _ (combine L N)) with false; [reflexivity|].
  symmetry. apply not_true_is_false. intros H. rewrite forallb_forall in H. specialize (H (nth i L 0%nat, nth i N 0%nat)). rewrite <- combine_nth in H by auto. assert (Hin : In (nth i (combine L N) (0, 0)%nat) (combine L N)) by (apply nth_In; rewrite combine_length; lia). apply H in Hin. rewrite combine_nth in Hin by auto. cbn [fst snd] in Hin.
  apply Nat.eqb_eq in Hin. apply Hd. apply Nat.mod_divide; [|exact Hin]. rewrite Forall_forall in HP. pose proof (HP _ (nth_In L 0%nat Hi)). lia.
Qed.
(* @prop C45 Halo exchange: after padding, every tile is a window of the whole periodic array: position j of tile b is the cell b * tile size + j - left padding of the untiled array, taken periodically (so corners too), provided no padding exceeds a tile. *)
Lemma halo_is_window_lem : forall A (t : arr A) N L m c P, tiled_by N L m -> shp t = fold_right Nat.mul 1%nat L :: m ++ [c] -> length P = length L ->
  (forall i, (i < length L)%nat -> (fst (nth i P (0, 0)) <= nth i m 0 /\ snd (nth i P (0, 0)) <= nth i m 0)%nat) ->
  exists x t', batch_to_space t L = Ok x /\ halo_exchange_pad t L P = Ok t' /\
    shp t' = fold_right Nat.mul 1%nat L :: map (fun i => (nth i m 0 + fst (nth i P (0, 0)) + snd (nth i P (0, 0)))%nat) (seq 0 (length L)) ++ [c] /\
    forall b j cc, inb L b -> inb (shp t') (tile_number L b :: j ++ [cc]) ->
      get t' (tile_number L b :: j ++ [cc]) = get x (cell_of N m (map fst P) b j ++ [cc]).
Proof.
  intros A t N L m c P HT Ht HP HB. destruct (@b2s_ok A t N L m c HT Ht) as (x & E). pose proof (@b2s_rep A x t N L m c HT Ht E) as R.
  destruct (@halo_spec A x t N L m c P HT R HP HB) as (t' & E' & S' & V'). exists x, t'. split; [exact E|]. split; [exact E'|]. split; [exact S'|]. intros b j cc Hb Hin. rewrite S' in Hin. destruct (inb_batch _ _ _ _ Hin) as (k & j2 & cc2 & Ej & Hk & Hj & Hc).
  injection Ej as <- Ej. apply app_inj_tail in Ej. destruct Ej as (-> & ->). rewrite tile_number_flat, V' by auto. rewrite <- (@cellF_cell N L m _ HT). do 2 f_equal. apply cellF_ext. intros i Hi. rewrite (nth_map' _ _ (0, 0)%nat 0%nat) by lia. reflexivity.
Qed.
(* @prop C45 Halo exchange refuses a padding larger than a tile instead of returning values from the wrong tile. *)
Lemma halo_too_wide_refused_lem : forall A (t : arr A) N L m c P i, tiled_by N L m -> shp t = fold_right Nat.mul 1%nat L :: m ++ [c] -> length P = length L ->
  (i < length L)%nat -> (nth i m 0 < fst (nth i P (0, 0)) \/ nth i m 0 < snd (nth i P (0, 0)))%nat -> halo_exchange_pad t L P = Err EType.
Proof.
  intros A t N L m c P i HT Ht HP Hi HB. destruct (@b2s_ok A t N L m c HT Ht) as (x & E). pose proof (@b2s_rep A x t N L m c HT Ht E) as R. eapply halo_err; eauto.
Qed.

(** ** convolutions *)
Lemma tiled_one N : (1 <= length N <= 3)%nat -> tiled_by N (repeat 1%nat (length N)) N.
Proof. intros H. repeat split; rewrite ?repeat_length; try lia; rewrite repeat_length in H0; rewrite nth_repeat' by exact H0; lia. Qed.
(* @prop C45 Applying any convolution-like operation (anything that maps every window of K cells of a batch entry to an output cell) through tiles gives, at every cell, the operation applied to the periodic window around this cell of the untiled array: the result does not depend on the layout. *)
Lemma tiled_convolution_lem : forall A (conv : arr A -> result (arr A)) K cin cout Phi (x : arr A) N L m P, acts_on_windows conv K cin cout Phi -> channels_last x N cin -> tiled_by N L m ->
  length K = length L -> length P = length L -> (forall i, (i < length L)%nat -> (fst (nth i P (0, 0)) + snd (nth i P (0, 0)) + 1 = nth i K 0)%nat) ->
  (forall i, (i < length L)%nat -> (fst (nth i P (0, 0)) <= nth i m 0 /\ snd (nth i P (0, 0)) <= nth i m 0)%nat) -> (forall i, (i < length N)%nat -> (0 < nth i N 0)%nat) ->
  exists y, apply_convolution conv x (Some L) P = Ok y /\ channels_last y N cout /\
    forall ix o, inb (N ++ [cout]) (ix ++ [o]) -> get y (ix ++ [o]) = Phi (fun t cc => get x (cell_at N (map fst P) ix t ++ [cc])) o.
Proof.
  intros A conv K cin cout Phi x N L m P (Hext & Hconv) Hx HT HK HP Hsum HB HN. unfold apply_convolution. pose proof (tb_LN HT) as LN. pose proof (tb_Lm HT) as Lm.
  pose proof (@s2b_calc N L m HT A x cin Hx) as E. set (t := mkarr _ _) in E. rewrite E. cbn [bind]. pose proof (@padded_start A x cin N L m HT t Hx E) as R.
  destruct (@halo_spec A x t N L m cin P HT R HP HB) as (t' & E' & S' & V'). rewrite E'. cbn [bind].
  destruct (Hconv t' _ _ S') as (y & Ey & Sy & Vy).
  { rewrite padM_length. auto. }
  { intros i Hi. rewrite padM_nth by lia. specialize (Hsum i ltac:(lia)). specialize (HB i ltac:(lia)).
    assert (0 < nth i N 0)%nat by (apply HN; lia). rewrite (@tb_N N L m HT i ltac:(lia)) in H. nia. }
  rewrite Ey. cbn [bind].
  assert (Em : map (fun i => (nth i (padM L m (fun i => fst (nth i P (0, 0)%nat)) (fun i => snd (nth i P (0, 0)%nat))) 0 - nth i K 0 + 1)%nat) (seq 0 (length K)) = m).
  { apply (list_ext_nth 0%nat); [rewrite map_length, seq_length; lia|]. intros i Hi. rewrite map_length, seq_length in Hi. rewrite (@nth_map_seq _ (fun i => (nth i (padM L m (fun i => fst (nth i P (0, 0)%nat)) (fun i => snd (nth i P (0, 0)%nat))) 0 - nth i K 0 + 1)%nat)) by exact Hi.
    rewrite padM_nth by lia. specialize (Hsum i ltac:(lia)). assert (0 < nth i N 0)%nat by (apply HN; lia). rewrite (@tb_N N L m HT i ltac:(lia)) in H. nia. }
  rewrite Em in Sy. rewrite (@b2s_calc N L m HT A y cout Sy). eexists; split; [reflexivity|]. split; [reflexivity|]. cbn [get shp]. intros ix o Hix. destruct (inb_last _ _ _ Hix) as (j & cc & Ej & Hj & Hc). apply app_inj_tail in Ej. destruct Ej as (<- & <-).
  pose proof (inb_length _ _ Hj) as Lj. rewrite LN in Lj. rewrite firstn_pre by exact Lj. rewrite nth_post by exact Lj. destruct (@div_inb N L m HT ix Hj) as (D1 & D2 & D3).
  rewrite Vy.
  2:{ rewrite Sy. cbn [inb]. split; [apply tflat_range; exact D1|]. apply inb_app_intro; [exact D2|]. cbn [inb]. auto. }
  apply Hext; [|exact Hc]. intros tx cc Htx Hcc. pose proof (inb_length _ _ Htx) as Lt.
  assert (Hwin : inb (padM L m (fun i => fst (nth i P (0, 0)%nat)) (fun i => snd (nth i P (0, 0)%nat))) (map (fun i => nth i (mod_ix m ix) 0 + nth i tx 0) (seq 0 (length K)))).
  { apply inb_intro; [rewrite map_length, seq_length, padM_length; exact HK|]. intros i Hi. rewrite padM_length in Hi. rewrite padM_nth by exact Hi. rewrite (@nth_map_seq _ (fun i => nth i (mod_ix m ix) 0 + nth i tx 0)) by lia.
    pose proof (@inb_nth _ _ i D2 ltac:(lia)). pose proof (@inb_nth _ _ i Htx ltac:(lia)). specialize (Hsum i ltac:(lia)). lia. }
  rewrite V' by auto. do 2 f_equal. unfold cellF, cell_at. rewrite LN. apply map_ext_in. intros i Hi. apply in_seq in Hi. rewrite (@nth_map_seq _ (fun i => nth i (mod_ix m ix) 0 + nth i tx 0)) by lia.
  rewrite (nth_map' _ _ (0, 0)%nat 0%nat) by lia. f_equal. rewrite div_ix_nth, mod_ix_nth by lia.
  pose proof (@inb_nth _ _ i D2 ltac:(lia)) as Hm. rewrite (Z.div_mod (nth i ix 0) (Z.of_nat (nth i m 0%nat))) at 3 by lia. ring.
Qed.
Lemma add_ix_map : forall a b, length a = length b -> add_ix a b = map (fun i => nth i a 0 + nth i b 0) (seq 0 (length b)).
Proof.
  intros a b H. apply (list_ext_nth 0); [rewrite add_ix_length, map_length, seq_length; auto|]. intros i Hi. rewrite add_ix_length in Hi by auto. rewrite add_ix_nth by auto. rewrite (@nth_map_seq _ (fun i => nth i a 0 + nth i b 0)) by lia. reflexivity.
Qed.
Lemma cell_at_firstn N pad ix tx d : length N = d -> cell_at N pad ix (firstn d tx) = cell_at N pad ix tx.
Proof.
  intros H. unfold cell_at. apply map_ext_in. intros i Hi. apply in_seq in Hi. do 2 f_equal. f_equal. rewrite H in Hi. clear - Hi. revert d i Hi. induction tx as [|t tx IH]; intros [|d] [|i] Hi; cbn; auto; try lia. apply IH. lia.
Qed.
Lemma conv_windows kernel K cin cout : shp kernel = K ++ [cin; cout] ->
  acts_on_windows (conv_valid kernel) K cin cout (fun f o => asum (K ++ [cin]) (fun tx => (f (firstn (length K) tx) (nth (length K) tx 0%Z) * get kernel (tx ++ [o]))%R)).
Proof.
  intros HK. split.
  - intros f g o H _. apply asum_ext. intros tx Htx. destruct (inb_last _ _ _ Htx) as (t & cc & -> & Ht & Hc). pose proof (inb_length _ _ Ht) as Lt. rewrite firstn_pre by exact Lt. rewrite nth_post by exact Lt. rewrite H by auto. reflexivity.
  - intros x B M Hx HM HKM. unfold conv_valid, ndim. rewrite HK, Hx. cbn [length]. rewrite !app_length. cbn [length]. replace (length K + 2 - 2)%nat with (length K) by lia.
    replace (length K + 2 <? 2)%nat with false by (symmetry; apply Nat.ltb_ge; lia). rewrite HM. replace (S (length K + 1)) with (length K + 2)%nat by lia. rewrite Nat.eqb_refl. cbn [negb orb nth tl].
    rewrite (@nth_post _ M cin [] _ 0%nat HM). rewrite (@nth_post _ K cin [cout] _ 0%nat eq_refl). rewrite Nat.eqb_refl. cbn [negb]. rewrite (@firstn_pre _ K [cin; cout] _ eq_refl), (@firstn_pre _ M [cin] _ HM).
    replace (existsb _ (combine K M)) with false.
    2:{ symmetry. apply not_true_is_false. intros H. apply existsb_exists in H. destruct H as ((k, n) & Hin & E). cbn [fst snd] in E. apply Nat.ltb_lt in E. destruct (In_nth _ _ (0, 0)%nat Hin) as (i & Hi & En). rewrite combine_length in Hi. rewrite combine_nth in En by auto. injection En as <- <-. specialize (HKM i ltac:(lia)). lia. }
    replace (nth (S (length K)) (K ++ [cin; cout]) 0%nat) with cout by (rewrite app_nth2 by lia; replace (S (length K) - length K)%nat with 1%nat by lia; reflexivity).
    eexists; split; [reflexivity|]. cbn [shp get]. split.
    + do 2 f_equal. apply (list_ext_nth 0%nat); [rewrite !map_length, combine_length, seq_length; lia|]. intros i Hi. rewrite map_length, combine_length in Hi. rewrite (nth_map' _ _ (0, 0)%nat 0%nat) by (rewrite combine_length; exact Hi). rewrite combine_nth by auto. cbn [fst snd].
      rewrite (@nth_map_seq _ (fun i => (nth i M 0 - nth i K 0 + 1)%nat)) by lia. reflexivity.
    + intros k j o Hin. destruct (inb_batch _ _ _ _ Hin) as (k' & j' & o' & Ej & _ & Hj & _). injection Ej as <- Ej. apply app_inj_tail in Ej. destruct Ej as (<- & <-). pose proof (inb_length _ _ Hj) as Lj. rewrite map_length, combine_length in Lj.
      apply asum_ext. intros tx Htx. cbn [nth tl]. assert (Lj' : length j = length K) by lia. rewrite (@firstn_pre _ j [o] _ Lj'), (@nth_post _ j o [] _ 0 Lj').
      destruct (inb_last _ _ _ Htx) as (t & cc & -> & Ht & Hc). pose proof (inb_length _ _ Ht) as Lt. rewrite firstn_pre by exact Lt. rewrite nth_post by exact Lt. rewrite add_ix_map by lia. rewrite Lt. reflexivity.
Qed.
Lemma get_padding_eq K r : length r = 2%nat -> get_padding (K ++ r) = map (fun k => (k - k / 2 - 1, k / 2)%nat) K.
Proof. intros H. unfold get_padding. rewrite app_length, H. replace (length K + 2 - 2)%nat with (length K) by lia. rewrite firstn_pre by reflexivity. reflexivity. Qed.
Lemma before_eq k : (0 < k)%nat -> (k - k / 2 - 1)%nat = before k.
Proof. intros H. unfold before. pose proof (Nat.div_mod k 2 ltac:(lia)). pose proof (Nat.mod_upper_bound k 2 ltac:(lia)). pose proof (Nat.div_mod (k - 1) 2 ltac:(lia)). pose proof (Nat.mod_upper_bound (k - 1) 2 ltac:(lia)). lia. Qed.
Lemma pad_le k : (0 < k)%nat -> (k - k / 2 - 1 <= k / 2)%nat /\ (k - k / 2 - 1 + k / 2 + 1 = k)%nat.
Proof. intros H. pose proof (Nat.div_mod k 2 ltac:(lia)). pose proof (Nat.mod_upper_bound k 2 ltac:(lia)). lia. Qed.
Definition tiles_of (N : list nat) (layout : option (list nat)) : list nat := match layout with Some L => L | None => repeat 1%nat (length N) end.
Lemma apply_opt A (conv : arr A -> result (arr A)) x N layout P : length P = length N -> apply_convolution conv x layout P = apply_convolution conv x (Some (tiles_of N layout)) P.
Proof. intros H. destruct layout as [L|]; [reflexivity|]. unfold apply_convolution, tiles_of. rewrite H. reflexivity. Qed.

(* @prop C45 Periodic convolution is the exact circular cross-correlation of the untiled array with the kernel, centred with one cell more after the centre than before it for even sizes, for every layout whose tiles are at least half a kernel wide (without a layout: the whole array). *)
Lemma periodic_convolution_exact_lem : forall (x kernel : arr R) N K cin cout layout m, channels_last x N cin -> shp kernel = K ++ [cin; cout] ->
  length K = length N -> (forall i, (i < length N)%nat -> (0 < nth i N 0 /\ 0 < nth i K 0)%nat) -> tiled_by N (match layout with Some L => L | None => repeat 1%nat (length N) end) m ->
  (forall i, (i < length N)%nat -> (nth i K 0 / 2 <= nth i m 0)%nat) ->
  exists y, periodic_convolution x kernel layout = Ok y /\ channels_last y N cout /\
    forall ix o, inb (N ++ [cout]) (ix ++ [o]) -> get y (ix ++ [o]) = correlate N K cin x kernel ix o.
Proof.
  intros x kernel N K cin cout layout m Hx HK LK Hpos HT Hm. change (match layout with Some L => L | None => _ end) with (tiles_of N layout) in HT. set (L := tiles_of N layout) in *.
  pose proof (tb_LN HT) as LN. pose proof HT as ((H1 & H3) & _). unfold periodic_convolution, ndim. rewrite HK, app_length. cbn [length]. replace (3 <=? length K + 2)%nat with true by (symmetry; apply Nat.leb_le; lia). replace (length K + 2 <=? 5)%nat with true by (symmetry; apply Nat.leb_le; lia). cbn [andb negb].
  rewrite (@get_padding_eq K [cin; cout] eq_refl). rewrite (@apply_opt R _ x N) by (rewrite map_length; exact LK). fold L.
  set (P := map (fun k => (k - k / 2 - 1, k / 2)%nat) K). assert (EP : forall i, (i < length N)%nat -> nth i P (0, 0)%nat = (nth i K 0 - nth i K 0 / 2 - 1, nth i K 0 / 2)%nat) by (intros i Hi; unfold P; rewrite (nth_map' _ _ 0%nat (0, 0)%nat) by lia; reflexivity).
  destruct (@tiled_convolution_lem R _ K cin cout _ x N L m P (@conv_windows kernel K cin cout HK) Hx HT) as (y & Ey & Sy & Vy).
  - lia.
  - unfold P. rewrite map_length. lia.
  - intros i Hi. rewrite EP by lia. cbn [fst snd]. apply pad_le. apply Hpos. lia.
  - intros i Hi. rewrite EP by lia. cbn [fst snd]. pose proof (@pad_le (nth i K 0%nat) ltac:(apply Hpos; lia)). specialize (Hm i ltac:(lia)). lia.
  - intros i Hi. apply Hpos. exact Hi.
  - exists y. split; [exact Ey|]. split; [exact Sy|]. intros ix o Hin. rewrite Vy by exact Hin. unfold correlate. apply asum_ext. intros tx Htx.
    assert (Eb : map fst P = map before K).
    { unfold P. rewrite map_map. apply map_ext_in. intros k Hk. cbn [fst]. apply before_eq. destruct (In_nth _ _ 0%nat Hk) as (i & Hi & <-). apply Hpos. lia. }
    rewrite Eb, cell_at_firstn by lia. reflexivity.
Qed.
(* @prop C45 The layout does not change the result of a periodic convolution: two layouts whose tiles are wide enough (or no layout) give the same array. *)
Lemma layout_irrelevant_lem : forall (x kernel : arr R) N K cin cout layout1 layout2 m1 m2, channels_last x N cin -> shp kernel = K ++ [cin; cout] ->
  length K = length N -> (forall i, (i < length N)%nat -> (0 < nth i N 0 /\ 0 < nth i K 0)%nat) ->
  tiled_by N (match layout1 with Some L => L | None => repeat 1%nat (length N) end) m1 -> tiled_by N (match layout2 with Some L => L | None => repeat 1%nat (length N) end) m2 ->
  (forall i, (i < length N)%nat -> (nth i K 0 / 2 <= nth i m1 0 /\ nth i K 0 / 2 <= nth i m2 0)%nat) ->
  exists y1 y2, periodic_convolution x kernel layout1 = Ok y1 /\ periodic_convolution x kernel layout2 = Ok y2 /\ aeq y1 y2.
Proof.
  intros x kernel N K cin cout l1 l2 m1 m2 Hx HK LK Hpos H1 H2 Hm.
  destruct (@periodic_convolution_exact_lem x kernel N K cin cout l1 m1 Hx HK LK Hpos H1) as (y1 & E1 & S1 & V1); [intros i Hi; apply Hm; exact Hi|].
  destruct (@periodic_convolution_exact_lem x kernel N K cin cout l2 m2 Hx HK LK Hpos H2) as (y2 & E2 & S2 & V2); [intros i Hi; apply Hm; exact Hi|].
  exists y1, y2. split; [exact E1|]. split; [exact E2|]. unfold channels_last in *. split; [congruence|]. rewrite S1. intros ix Hix. destruct (inb_last _ _ _ Hix) as (j & cc & -> & Hj & Hc). rewrite V1, V2 by exact Hix. reflexivity.
Qed.
(* @prop C45 A periodic convolution whose kernel reaches over more than one neighbouring tile is refused. *)
Lemma kernel_too_wide_refused_lem : forall (x kernel : arr R) N K cin cout layout m i, channels_last x N cin -> shp kernel = K ++ [cin; cout] ->
  length K = length N -> tiled_by N (match layout with Some L => L | None => repeat 1%nat (length N) end) m ->
  (i < length N)%nat -> (nth i m 0 < nth i K 0 / 2)%nat -> periodic_convolution x kernel layout = Err EType.
Proof.
  intros x kernel N K cin cout layout m i Hx HK LK HT Hi Hm. change (match layout with Some L => L | None => _ end) with (tiles_of N layout) in HT. set (L := tiles_of N layout) in *.
  pose proof (tb_LN HT) as LN. pose proof HT as ((H1 & H3) & _). unfold periodic_convolution, ndim. rewrite HK, app_length. cbn [length]. replace (3 <=? length K + 2)%nat with true by (symmetry; apply Nat.leb_le; lia). replace (length K + 2 <=? 5)%nat with true by (symmetry; apply Nat.leb_le; lia). cbn [andb negb].
  rewrite (@get_padding_eq K [cin; cout] eq_refl). rewrite (@apply_opt R _ x N) by (rewrite map_length; exact LK). fold L. unfold apply_convolution.
  pose proof (@s2b_calc N L m HT R x cin Hx) as E. set (t := mkarr _ _) in E. rewrite E. cbn [bind]. pose proof (@padded_start R x cin N L m HT t Hx E) as R0.
  rewrite (@halo_err R x t N L m cin _ i HT R0); [reflexivity | rewrite map_length; lia | lia |]. right. rewrite (nth_map' _ _ 0%nat (0, 0)%nat) by lia. exact Hm.
Qed.

(** ** patches *)
Lemma asum_pick : forall s t f, inb s t -> (forall ix, inb s ix -> ix <> t -> f ix = 0%R) -> asum s f = f t.
Proof.
  induction s as [|n s IH]; intros [|k t] f Ht H; cbn [inb] in Ht; try tauto. destruct Ht as (Hk & Ht). cbn [asum]. rewrite (@rsum_single n _ k Hk).
  - apply (IH t (fun ix => f (k :: ix)) Ht). intros ix Hix Hne. apply H; [cbn [inb]; auto | congruence].
  - intros i Hi Hne. rewrite <- (asum_0 s). apply asum_ext. intros ix Hix. apply H; [cbn [inb]; auto | congruence].
Qed.
Lemma nth_flat_map {A B} (f : A -> list B) n (da : A) (db : B) : forall l q r, (forall x, In x l -> length (f x) = n) -> (q < length l)%nat -> (r < n)%nat ->
  nth (q * n + r) (flat_map f l) db = nth r (f (nth q l da)) db.
Proof.
  induction l as [|x l IH]; intros q r Hn Hq Hr; [cbn in Hq; lia|]. cbn [flat_map]. pose proof (Hn x (or_introl eq_refl)) as Hx. destruct q as [|q].
  - cbn [Nat.mul Nat.add]. rewrite app_nth1 by lia. reflexivity.
  - rewrite app_nth2 by lia. rewrite Hx. replace (S q * n + r - n)%nat with (q * n + r)%nat by lia. cbn [nth]. apply IH; [intros y Hy; apply Hn; right; exact Hy | cbn [length] in Hq; lia | exact Hr].
Qed.
Lemma cart_length ls : length (cart ls) = asize (map (@length Z) ls).
Proof.
  induction ls as [|l ls IH]; [reflexivity|]. cbn [cart map]. change (asize (length l :: map (@length Z) ls)) with (length l * asize (map (@length Z) ls))%nat. rewrite <- IH. induction l as [|x l IHl]; [reflexivity|]. cbn [flat_map length]. rewrite app_length, map_length, IHl. lia.
Qed.
Lemma cart_nth ls : forall t, inb (map (@length Z) ls) t -> nth (Z.to_nat (tflat (map (@length Z) ls) t)) (cart ls) [] = map (fun i => nth (Z.to_nat (nth i t 0)) (nth i ls []) 0) (seq 0 (length ls)).
Proof.
  induction ls as [|l ls IH]; intros [|k t] Ht; cbn [map inb] in Ht; try tauto. destruct Ht as (Hk & Ht). pose proof (@tflat_range _ _ Ht) as R. cbn [map tflat cart].
  replace (Z.to_nat (k * Z.of_nat (asize (map (@length Z) ls)) + tflat (map (@length Z) ls) t)) with (Z.to_nat k * asize (map (@length Z) ls) + Z.to_nat (tflat (map (@length Z) ls) t))%nat by nia.
  rewrite (@nth_flat_map Z (list Z) _ (asize (map (@length Z) ls)) 0 []); [| intros x _; rewrite map_length; apply cart_length | lia | lia].
  rewrite (nth_map' _ _ [] []) by (rewrite cart_length; lia). rewrite IH by exact Ht. cbn [length seq map nth]. f_equal. rewrite <- seq_shift, map_map. reflexivity.
Qed.
Lemma zrange_length a b : length (zrange a b) = Z.to_nat (b - a).
Proof. unfold zrange. rewrite map_length, seq_length. reflexivity. Qed.
Lemma patch_shift size : (0 < size)%nat -> (- Z.of_nat size) / 2 + 1 = - Z.of_nat (before size) /\ Z.to_nat (Z.of_nat size / 2 + 1 - ((- Z.of_nat size) / 2 + 1)) = size.
Proof.
  intros H. unfold before. pose proof (Nat.div_mod (size - 1) 2 ltac:(lia)). pose proof (Nat.mod_upper_bound (size - 1) 2 ltac:(lia)).
  pose proof (Z.div_mod (- Z.of_nat size) 2 ltac:(lia)). pose proof (Z.mod_pos_bound (- Z.of_nat size) 2 ltac:(lia)). pose proof (Z.div_mod (Z.of_nat size) 2 ltac:(lia)). pose proof (Z.mod_pos_bound (Z.of_nat size) 2 ltac:(lia)). lia.
Qed.
Lemma squeeze_last A (x : arr A) N : shp x = N ++ [1%nat] -> jnp_squeeze x (-1) = Ok (mkarr N (fun ix => get x (firstn (length N) ix ++ 0 :: skipn (length N) ix))).
Proof.
  intros Hx. unfold jnp_squeeze, normalize_axis, ndim. rewrite Hx, app_length. cbn [length]. replace (- Z.of_nat (length N + 1) <=? -1) with true by (symmetry; apply Z.leb_le; lia). replace (-1 <? Z.of_nat (length N + 1)) with true by (symmetry; apply Z.ltb_lt; lia). cbn [andb].
  change (-1 <? 0) with true. cbn [bind]. replace (Z.to_nat (-1 + Z.of_nat (length N + 1))) with (length N) by lia. rewrite nth_post by reflexivity. cbn [Nat.eqb]. unfold remove_at, insert_at. rewrite firstn_pre by reflexivity. rewrite skipn_all2 by (rewrite app_length; cbn; lia). rewrite app_nil_r. reflexivity.
Qed.
(* @prop C45 Patches by rolling: channel t of cell ix is the periodic neighbour of ix at offset t - (size-1)/2 on every axis, for any number of axes and any patch sizes (row-major channel order). *)
Lemma roll_patches_lem : forall (x : arr R) N S layout, channels_last x N 1 -> length S = length N -> (forall i, (i < length N)%nat -> (0 < nth i S 0)%nat) ->
  exists y, extract_patches x S PRoll layout = Ok y /\ channels_last y N (fold_right Nat.mul 1%nat S) /\
    forall ix t, inb N ix -> inb S t -> get y (ix ++ [tile_number S t]) = get x (cell_at N (map before S) ix t ++ [0]).
Proof.
  intros x N S layout Hx HS Hpos. cbn [extract_patches]. unfold extract_patches_roll. rewrite (@squeeze_last R x N Hx). cbn [bind]. unfold ndim. cbn [shp]. rewrite HS, Nat.eqb_refl. cbn [negb].
  set (sh := map (fun size => zrange ((- Z.of_nat size) / 2 + 1) (Z.of_nat size / 2 + 1)) S).
  assert (Esh : map (@length Z) sh = S).
  { unfold sh. rewrite map_map. rewrite <- (map_id S) at 2. apply map_ext_in. intros k Hk. rewrite zrange_length. destruct (In_nth _ _ 0%nat Hk) as (i & Hi & <-). apply patch_shift. apply Hpos. lia. }
  eexists; split; [reflexivity|]. split; [unfold channels_last; cbn [shp]; rewrite map_length, cart_length, Esh; reflexivity|]. intros ix t Hix Ht. cbn [get].
  pose proof (inb_length _ _ Hix) as Lx. pose proof (inb_length _ _ Ht) as Lt. rewrite firstn_pre by exact Lx. rewrite nth_post by exact Lx. rewrite tile_number_flat.
  pose proof (@tflat_range _ _ Ht) as R. rewrite (nth_map' _ _ [] []) by (rewrite cart_length, Esh; lia). rewrite map_map.
  assert (Ec : nth (Z.to_nat (tflat S t)) (cart sh) [] = map (fun i => nth (Z.to_nat (nth i t 0)) (nth i sh []) 0) (seq 0 (length sh))) by (rewrite <- Esh at 1; apply cart_nth; rewrite Esh; exact Ht). rewrite Ec, map_map.
  set (off := map _ (seq 0 (length sh))). assert (Lsh : length sh = length N) by (unfold sh; rewrite map_length; exact HS). assert (Lo : length off = length N) by (unfold off; rewrite map_length, seq_length; exact Lsh).
  set (w := wrap N _). assert (Lw : length w = length N). { unfold w. apply wrap_length. rewrite add_ix_length by lia. exact Lx. }
  rewrite <- Lw. rewrite firstn_all, skipn_all. do 2 f_equal. apply (list_ext_nth 0); [unfold cell_at; rewrite map_length, seq_length; exact Lw|]. intros i Hi. rewrite Lw in Hi. unfold cell_at. rewrite (@nth_map_seq _ (fun i => (nth i ix 0 + nth i t 0 - Z.of_nat (nth i (map before S) 0%nat)) mod Z.of_nat (nth i N 0%nat))) by exact Hi.
  unfold w. rewrite wrap_nth by (rewrite ?add_ix_length; lia). f_equal. rewrite add_ix_nth by lia. unfold off. rewrite (@nth_map_seq _ (fun x0 => - - nth (Z.to_nat (nth x0 t 0)) (nth x0 sh []) 0)) by lia.
  unfold sh. rewrite (nth_map' _ _ 0%nat []) by lia. destruct (@patch_shift (nth i S 0%nat) (Hpos i Hi)) as (A1 & A2). unfold zrange. pose proof (@inb_nth _ _ i Ht ltac:(lia)) as Rt. rewrite (@nth_map_seq _ (fun i0 => - Z.of_nat (nth i S 0%nat) / 2 + 1 + Z.of_nat i0)) by lia.
  rewrite (nth_map' _ _ 0%nat 0%nat) by lia. lia.
Qed.
(* @prop C45 Patches by convolution: the same array as by rolling, through every layout whose tiles are at least half a patch wide. *)
Lemma conv_patches_are_roll_patches_lem : forall (x : arr R) N S layout m, channels_last x N 1 -> length S = length N -> (forall i, (i < length N)%nat -> (0 < nth i N 0 /\ 0 < nth i S 0)%nat) ->
  tiled_by N (match layout with Some L => L | None => repeat 1%nat (length N) end) m -> (forall i, (i < length N)%nat -> (nth i S 0 / 2 <= nth i m 0)%nat) ->
  exists y1 y2, extract_patches x S PConv layout = Ok y1 /\ extract_patches x S PRoll layout = Ok y2 /\ aeq y1 y2 /\
    forall ix t, inb N ix -> inb S t -> get y1 (ix ++ [tile_number S t]) = get x (cell_at N (map before S) ix t ++ [0]).
Proof.
  intros x N S layout m Hx HS Hpos HT Hm. destruct (@roll_patches_lem x N S layout Hx HS) as (y2 & E2 & S2 & V2); [intros i Hi; apply Hpos; exact Hi|].
  destruct (@periodic_convolution_exact_lem x (patch_kernel S) N S 1 (asize S) layout m Hx eq_refl HS Hpos HT Hm) as (y1 & E1 & S1 & V1).
  assert (V : forall ix t, inb N ix -> inb S t -> get y1 (ix ++ [tile_number S t]) = get x (cell_at N (map before S) ix t ++ [0])).
  { intros ix t Hix Ht. pose proof (@tflat_range _ _ Ht) as Rt. rewrite V1; [| apply inb_app_intro; [exact Hix | cbn [inb]; rewrite tile_number_flat; auto]]. unfold correlate. rewrite (@asum_pick (S ++ [1%nat]) (t ++ [0])).
    - pose proof (inb_length _ _ Ht) as Lt. rewrite nth_post by exact Lt. pose proof (@cell_at_firstn N (map before S) ix (t ++ [0]) (length S) (eq_sym HS)) as Ef. rewrite firstn_pre in Ef by exact Lt. rewrite <- Ef. unfold patch_kernel. cbn [get]. rewrite <- app_assoc. rewrite firstn_pre by exact Lt.
      cbn [app]. rewrite app_nth2 by lia. replace (1 + length S - length t)%nat with 1%nat by lia. cbn [nth]. replace (Datatypes.S (length S) - length t)%nat with 1%nat by lia. cbn [nth]. rewrite (tile_number_flat S t), Z.eqb_refl. ring.
    - apply inb_app_intro; [exact Ht | cbn [inb]; lia].
    - intros ix2 H2 Hne. destruct (inb_last _ _ _ H2) as (t2 & cc & -> & Ht2 & Hc). pose proof (inb_length _ _ Ht2) as Lt2. unfold patch_kernel. cbn [get]. rewrite <- app_assoc. rewrite firstn_pre by exact Lt2. cbn [app]. rewrite (@app_nth2 _ t2 _ 0%Z (Datatypes.S (length S))) by lia.
      replace (Datatypes.S (length S) - length t2)%nat with 1%nat by lia. cbn [nth]. rewrite (tile_number_flat S t). destruct (Z.eqb_spec (tflat S t2) (tflat S t)) as [E|_]; [|ring]. exfalso. apply Hne. assert (cc = 0) by lia. subst cc. f_equal.
      rewrite <- (tunflat_flat S t2 Ht2), <- (tunflat_flat S t Ht), E. reflexivity. }
  exists y1, y2. split; [exact E1|]. split; [exact E2|]. split; [|exact V]. unfold channels_last in *. split; [rewrite S1, S2; reflexivity|]. rewrite S1. intros ix Hix. destruct (inb_last _ _ _ Hix) as (j & cc & -> & Hj & Hc).
  assert (Ec : cc = tile_number S (tunflat S cc)) by (rewrite tile_number_flat; symmetry; apply tflat_unflat; exact Hc). rewrite Ec. pose proof (@tunflat_inb S cc Hc) as Ht. rewrite V, V2 by auto. reflexivity.
Qed.

Lemma map_rep {A B} (f : A -> B) x n : map f (repeat x n) = repeat (f x) n.
Proof. induction n as [|n IH]; cbn; [reflexivity|]. rewrite IH. reflexivity. Qed.
Lemma concat_repeat A ax (a : arr A) n sz dd : forall q ix, nth ax (shp a) 0%nat = sz -> (ax < length ix)%nat -> (0 <= q < Z.of_nat n) -> (Z.of_nat sz * q <= nth ax ix 0 < Z.of_nat sz * q + Z.of_nat sz) ->
  concat_lines ax (repeat a n) dd ix = get a (upd ax (nth ax ix 0 - Z.of_nat sz * q) ix).
Proof.
  induction n as [|n IH]; intros q ix Hsz Hax Hq HR; [lia|]. cbn [repeat concat_lines]. rewrite Hsz. destruct (Z.ltb_spec (nth ax ix 0) (Z.of_nat sz)) as [Hlt|Hge].
  - assert (q = 0) by nia. subst q. rewrite Z.mul_0_r, Z.sub_0_r, upd_self. reflexivity.
  - assert (1 <= q) by nia. rewrite (IH (q - 1)); rewrite ?upd_length, ?nth_upd_same by exact Hax; auto; try lia. rewrite upd_upd_same. f_equal. f_equal. ring.
Qed.
Lemma last_axis n : normalize_axis (-1) (S n) = Ok n.
Proof.
  unfold normalize_axis. replace (- Z.of_nat (S n) <=? -1) with true by (symmetry; apply Z.leb_le; lia). replace (-1 <? Z.of_nat (S n)) with true by (symmetry; apply Z.ltb_lt; lia). cbn [andb]. change (-1 <? 0) with true. cbn [bind]. replace (Z.to_nat (-1 + Z.of_nat (S n))) with n by lia. reflexivity.
Qed.
(* @prop C45 Fused patch extraction for several equal patch shapes: block q of the channels holds the patches, as if extracted on their own. *)
Lemma fused_patches_same_shape_lem : forall (x : arr R) N S n layout m, channels_last x N 1 -> length S = length N -> (0 < n)%nat -> (forall i, (i < length N)%nat -> (0 < nth i N 0 /\ 0 < nth i S 0)%nat) ->
  tiled_by N (match layout with Some L => L | None => repeat 1%nat (length N) end) m -> (forall i, (i < length N)%nat -> (nth i S 0 / 2 <= nth i m 0)%nat) ->
  exists y, fused_extract_patches x (repeat S n) layout = Ok y /\ channels_last y N (n * fold_right Nat.mul 1%nat S) /\
    forall ix q t, inb N ix -> 0 <= q < Z.of_nat n -> inb S t -> get y (ix ++ [q * Z.of_nat (fold_right Nat.mul 1%nat S) + tile_number S t]) = get x (cell_at N (map before S) ix t ++ [0]).
Proof.
  intros x N S n layout m Hx HS Hn Hpos HT Hm. unfold fused_extract_patches. rewrite map_rep. set (pk := patch_kernel S).
  assert (Esum : fold_right Nat.add 0%nat (map (fun b => nth (Datatypes.S (length S)) (shp b) 0%nat) (repeat pk n)) = (n * asize S)%nat).
  { rewrite map_rep. unfold pk. cbn [patch_kernel shp]. rewrite app_nth2 by lia. replace (Datatypes.S (length S) - length S)%nat with 1%nat by lia. cbn [nth]. clear. induction n as [|n IH]; [reflexivity|]. cbn [repeat fold_right]. rewrite IH. lia. }
  destruct n as [|n]; [lia|]. cbn [repeat] in *. unfold concatenate. assert (En : ndim pk = Datatypes.S (Datatypes.S (length S))) by (unfold ndim, pk; cbn [patch_kernel shp]; rewrite app_length; cbn [length]; lia). rewrite En, last_axis. cbn [bind].
  replace (forallb _ (pk :: repeat pk n)) with true.
  2:{ symmetry. apply forallb_forall. intros b Hb. assert (b = pk) by (destruct Hb as [<- | Hb]; [reflexivity | apply repeat_spec in Hb; exact Hb]). subst b. rewrite En, Nat.eqb_refl. cbn [andb]. apply forallb_forall. intros j _. rewrite Nat.eqb_refl. apply orb_true_r. }
  rewrite Esum. cbn [bind]. set (ker := mkarr _ _).
  assert (Sk : shp ker = S ++ [1%nat; (Datatypes.S n * asize S)%nat]).
  { unfold ker, pk. cbn [patch_kernel shp]. clear. generalize (Datatypes.S n * asize S)%nat as u. generalize (asize S) as v. intros v u. induction S as [|s S IH]; [reflexivity|]. change (Datatypes.S (length (s :: S))) with (Datatypes.S (Datatypes.S (length S))). rewrite <- !app_comm_cons. cbn [upd]. f_equal. exact IH. }
  destruct (@periodic_convolution_exact_lem x ker N S 1 _ layout m Hx Sk HS Hpos HT Hm) as (y & Ey & Sy & Vy). exists y. split; [exact Ey|]. split; [exact Sy|]. intros ix q t Hix Hq Ht. pose proof (@tflat_range _ _ Ht) as Rt.
  set (o := q * Z.of_nat (fold_right Nat.mul 1%nat S) + tile_number S t). assert (Eo : o = q * Z.of_nat (asize S) + tflat S t) by (unfold o; rewrite (tile_number_flat S t); reflexivity).
  rewrite Vy; [| apply inb_app_intro; [exact Hix | cbn [inb]; rewrite Eo; nia]]. unfold correlate.
  assert (Hker : forall t2 cc, inb S t2 -> get ker ((t2 ++ [cc]) ++ [o]) = (if tflat S t2 =? tflat S t then 1 else 0)%R).
  { intros t2 cc Ht2. pose proof (inb_length _ _ Ht2) as L2. unfold ker. cbn [get]. change (pk :: repeat pk n) with (repeat pk (Datatypes.S n)).
    assert (Ea : nth (Datatypes.S (length S)) ((t2 ++ [cc]) ++ [o]) 0 = o) by (rewrite app_nth2; rewrite app_length, L2; cbn [length]; [|lia]; replace (Datatypes.S (length S) - (length S + 1))%nat with 0%nat by lia; reflexivity).
    rewrite (@concat_repeat R (Datatypes.S (length S)) pk (Datatypes.S n) (asize S) pk q).
    - rewrite Ea. replace (o - Z.of_nat (asize S) * q) with (tflat S t) by (rewrite Eo; ring).
      assert (Eu : upd (Datatypes.S (length S)) (tflat S t) ((t2 ++ [cc]) ++ [o]) = (t2 ++ [cc]) ++ [tflat S t]).
      { replace (Datatypes.S (length S)) with (length (t2 ++ [cc]) + 0)%nat by (rewrite app_length; cbn [length]; lia). clear. induction (t2 ++ [cc]) as [|z l IH]; [reflexivity|]. cbn [length Nat.add app upd]. f_equal. exact IH. }
      rewrite Eu. unfold pk, patch_kernel. cbn [get]. rewrite <- app_assoc. rewrite firstn_pre by exact L2. cbn [app]. rewrite app_nth2 by lia. replace (Datatypes.S (length S) - length t2)%nat with 1%nat by lia. reflexivity.
    - unfold pk. cbn [patch_kernel shp]. rewrite app_nth2 by lia. replace (Datatypes.S (length S) - length S)%nat with 1%nat by lia. reflexivity.
    - rewrite !app_length, L2. cbn [length]. lia.
    - exact Hq.
    - rewrite Ea, Eo. nia. }
  rewrite (@asum_pick (S ++ [1%nat]) (t ++ [0])).
  - rewrite Hker by exact Ht. rewrite Z.eqb_refl. pose proof (inb_length _ _ Ht) as Lt. rewrite nth_post by exact Lt. pose proof (@cell_at_firstn N (map before S) ix (t ++ [0]) (length S) (eq_sym HS)) as Ef. rewrite firstn_pre in Ef by exact Lt. rewrite <- Ef. ring.
  - apply inb_app_intro; [exact Ht | cbn [inb]; lia].
  - intros ix2 H2 Hne. destruct (inb_last _ _ _ H2) as (t2 & cc & -> & Ht2 & Hc). rewrite Hker by exact Ht2. destruct (Z.eqb_spec (tflat S t2) (tflat S t)) as [E|_]; [|ring]. exfalso. apply Hne. assert (cc = 0) by lia. subst cc. f_equal. rewrite <- (tunflat_flat S t2 Ht2), <- (tunflat_flat S t Ht), E. reflexivity.
Qed.
(* @prop C45 Fused patch extraction for patches of different shapes always fails, since the kernels cannot be concatenated: the fusion the function exists for is limited to equal shapes. *)
Lemma fused_patches_mixed_shapes_fail_lem : forall (x : arr R) S0 S1 rest layout, S0 <> S1 -> fused_extract_patches x (S0 :: S1 :: rest) layout = Err EType.
Proof.
  intros x S0 S1 rest layout Hne. unfold fused_extract_patches. cbn [map]. unfold concatenate. assert (En : forall S, ndim (patch_kernel S) = Datatypes.S (Datatypes.S (length S))) by (intros S; unfold ndim; cbn [patch_kernel shp]; rewrite app_length; cbn [length]; lia). rewrite En, last_axis. cbn [bind].
  replace (forallb _ _) with false; [reflexivity|]. symmetry. apply not_true_is_false. intros H. rewrite forallb_forall in H. specialize (H (patch_kernel S1) (or_intror (or_introl eq_refl))). apply andb_prop in H. destruct H as (H1 & H2). apply Nat.eqb_eq in H1. rewrite En in H1. assert (HL : length S1 = length S0) by lia.
  apply Hne. rewrite forallb_forall in H2. apply (list_ext_nth 0%nat); [auto|]. intros i Hi. specialize (H2 i ltac:(apply in_seq; lia)). apply orb_prop in H2. destruct H2 as [H2|H2]; apply Nat.eqb_eq in H2; [lia|]. cbn [patch_kernel shp] in H2. rewrite !app_nth1 in H2 by lia. auto.
Qed.

(** ** examples: a 4 x 6 array whose cell (i, j) holds 6 i + j *)
Definition x46 : arr R := mkarr [4; 6; 1]%nat (fun ix => IZR (6 * nth 0 ix 0 + nth 1 ix 0)).
Lemma x46_cl : channels_last x46 [4; 6]%nat 1. Proof. reflexivity. Qed.
Lemma tb46 : tiled_by [4; 6]%nat [2; 3]%nat [2; 2]%nat.
Proof. split; [cbn; lia|]. split; [reflexivity|]. split; [reflexivity|]. intros [|[|i]] Hi; cbn in *; lia. Qed.
Lemma tb46_one : tiled_by [4; 6]%nat [1; 1]%nat [4; 6]%nat.
Proof. split; [cbn; lia|]. split; [reflexivity|]. split; [reflexivity|]. intros [|[|i]] Hi; cbn in *; lia. Qed.
(* @ex *)
Lemma tiles_are_blocks_ex_lem : exists t, space_to_batch x46 [2; 3]%nat = Ok t /\ get t [5; 1; 0; 0] = 22%R.
Proof.
  destruct (tiles_are_blocks_lem x46_cl tb46) as (t & E & _ & V & _). exists t. split; [exact E|]. specialize (V [1; 2] [1; 0] 0 ltac:(cbn; lia) ltac:(cbn; lia) ltac:(lia)). change (tile_number [2; 3]%nat [1; 2] :: [1; 0] ++ [0]) with [5; 1; 0; 0] in V. rewrite V. reflexivity.
Qed.
(* @ex *)
Lemma tiles_back_and_forth_ex_lem : exists x, batch_to_space (mkarr [6; 2; 2; 1]%nat (fun ix => IZR (nth 0 ix 0))) [2; 3]%nat = Ok x /\ channels_last x [4; 6]%nat 1.
Proof. destruct (@tiles_back_and_forth_lem R (mkarr [6; 2; 2; 1]%nat (fun ix => IZR (nth 0 ix 0))) _ _ _ 1 tb46 eq_refl) as (x & E & S & _). exists x. split; [exact E | exact S]. Qed.
(* @ex *)
Lemma bad_layout_refused_ex_lem : space_to_batch x46 [3; 2]%nat = Err EShape.
Proof.
  apply (@bad_layout_refused_lem R x46 [4; 6]%nat [3; 2]%nat 1 0%nat x46_cl); [cbn; lia | reflexivity | repeat constructor | cbn; lia |]. cbn [nth]. intros (k & Hk). lia.
Qed.
Lemma halo_ex_t : exists t, space_to_batch x46 [2; 3]%nat = Ok t /\ shp t = [6; 2; 2; 1]%nat.
Proof. destruct (tiles_are_blocks_lem x46_cl tb46) as (t & E & S & _). exists t. split; [exact E | exact S]. Qed.
(* @ex *)
Lemma halo_is_window_ex_lem : exists t t', space_to_batch x46 [2; 3]%nat = Ok t /\ halo_exchange_pad t [2; 3]%nat [(1, 1); (2, 0)]%nat = Ok t' /\ get t' [0; 0; 1; 0] = 23%R.
Proof.
  destruct (tiles_are_blocks_lem x46_cl tb46) as (t & E & S & V0 & y & Ey & Ay). exists t.
  destruct (@halo_is_window_lem R t _ _ _ 1 [(1, 1); (2, 0)]%nat tb46 S eq_refl) as (x & t' & E1 & E2 & S2 & V); [intros [|[|i]] Hi; cbn in *; lia|].
  exists t'. split; [exact E|]. split; [exact E2|]. rewrite Ey in E1. injection E1 as <-. specialize (V [0; 0] [0; 1] 0). rewrite S2 in V. specialize (V ltac:(cbn; lia) ltac:(cbn; lia)). change (tile_number [2; 3]%nat [0; 0] :: [0; 1] ++ [0]) with [0; 0; 1; 0] in V. rewrite V.
  destruct Ay as (A1 & A2). rewrite A2; [reflexivity|]. rewrite A1. cbn. lia.
Qed.
(* @ex *)
Lemma halo_too_wide_refused_ex_lem : halo_exchange_pad (mkarr [6; 2; 2; 1]%nat (fun _ => 0%R)) [2; 3]%nat [(1, 1); (0, 3)]%nat = Err EType.
Proof. apply (@halo_too_wide_refused_lem R _ _ _ _ 1 [(1, 1); (0, 3)]%nat 1%nat tb46); [reflexivity | reflexivity | cbn; lia | cbn; lia]. Qed.
(** a 3 x 3 kernel *)
Definition k33 : arr R := mkarr [3; 3; 1; 1]%nat (fun ix => IZR (nth 0 ix 0)).
Lemma pos46 : forall i, (i < 2)%nat -> (0 < nth i [4; 6] 0 /\ 0 < nth i [3; 3] 0)%nat.
Proof. intros [|[|i]] Hi; cbn; lia. Qed.
(* @ex *)
Lemma tiled_convolution_ex_lem : exists y, apply_convolution (conv_valid k33) x46 (Some [2; 3]%nat) [(1, 1); (1, 1)]%nat = Ok y /\ channels_last y [4; 6]%nat 1.
Proof.
  destruct (@tiled_convolution_lem R _ [3; 3]%nat 1 1 _ x46 _ _ _ [(1, 1); (1, 1)]%nat (@conv_windows k33 [3; 3]%nat 1 1 eq_refl) x46_cl tb46 eq_refl eq_refl) as (y & E & S & _); [| | |exists y; split; [exact E | exact S]]; intros [|[|i]] Hi; cbn in *; lia.
Qed.
(* @ex *)
Lemma periodic_convolution_exact_ex_lem : exists y, periodic_convolution x46 k33 (Some [2; 3]%nat) = Ok y /\ get y [0; 0; 0] = 54%R.
Proof.
  destruct (@periodic_convolution_exact_lem x46 k33 [4; 6]%nat [3; 3]%nat 1 1 (Some [2; 3]%nat) [2; 2]%nat x46_cl eq_refl eq_refl pos46 tb46) as (y & E & _ & V); [intros [|[|i]] Hi; cbn in *; lia|].
  exists y. split; [exact E|]. specialize (V [0; 0] 0 ltac:(cbn; lia)). change ([0; 0] ++ [0]) with [0; 0; 0] in V. rewrite V. unfold correlate, cell_at, before, x46, k33. simpl. change (-1 mod 6) with 5. change (0 mod 6) with 0. change (1 mod 6) with 1. lra.
Qed.
(* @ex *)
Lemma layout_irrelevant_ex_lem : exists y1 y2, periodic_convolution x46 k33 (Some [2; 3]%nat) = Ok y1 /\ periodic_convolution x46 k33 None = Ok y2 /\ aeq y1 y2.
Proof.
  apply (@layout_irrelevant_lem x46 k33 [4; 6]%nat [3; 3]%nat 1 1 (Some [2; 3]%nat) None [2; 2]%nat [4; 6]%nat x46_cl eq_refl eq_refl pos46 tb46 tb46_one). intros [|[|i]] Hi; cbn in *; lia.
Qed.
(* @ex *)
Lemma kernel_too_wide_refused_ex_lem : periodic_convolution x46 (mkarr [6; 3; 1; 1]%nat (fun _ => 1%R)) (Some [2; 3]%nat) = Err EType.
Proof. apply (@kernel_too_wide_refused_lem x46 (mkarr [6; 3; 1; 1]%nat (fun _ => 1%R)) [4; 6]%nat [6; 3]%nat 1 1 (Some [2; 3]%nat) [2; 2]%nat 0%nat x46_cl eq_refl eq_refl tb46); cbn; lia. Qed.
(* @ex *)
Lemma roll_patches_ex_lem : exists y, extract_patches x46 [3; 2]%nat PRoll None = Ok y /\ get y [0; 0; 1] = 19%R.
Proof.
  destruct (@roll_patches_lem x46 [4; 6]%nat [3; 2]%nat None x46_cl eq_refl) as (y & E & _ & V); [intros [|[|i]] Hi; cbn in *; lia|]. exists y. split; [exact E|]. specialize (V [0; 0] [0; 1] ltac:(cbn; lia) ltac:(cbn; lia)). change ([0; 0] ++ [tile_number [3; 2]%nat [0; 1]]) with [0; 0; 1] in V. rewrite V. reflexivity.
Qed.
(* @ex *)
Lemma conv_patches_are_roll_patches_ex_lem : exists y1 y2, extract_patches x46 [3; 2]%nat PConv (Some [2; 3]%nat) = Ok y1 /\ extract_patches x46 [3; 2]%nat PRoll (Some [2; 3]%nat) = Ok y2 /\ aeq y1 y2.
Proof.
  destruct (@conv_patches_are_roll_patches_lem x46 [4; 6]%nat [3; 2]%nat (Some [2; 3]%nat) [2; 2]%nat x46_cl eq_refl) as (y1 & y2 & E1 & E2 & A & _); [| exact tb46 | | exists y1, y2; auto]; intros [|[|i]] Hi; cbn in *; lia.
Qed.
(* @ex *)
Lemma fused_patches_same_shape_ex_lem : exists y, fused_extract_patches x46 [[3; 2]; [3; 2]]%nat (Some [2; 3]%nat) = Ok y /\ get y [0; 0; 7] = 19%R.
Proof.
  destruct (@fused_patches_same_shape_lem x46 [4; 6]%nat [3; 2]%nat 2%nat (Some [2; 3]%nat) [2; 2]%nat x46_cl eq_refl ltac:(lia)) as (y & E & _ & V); [| exact tb46 | |]; [intros [|[|i]] Hi; cbn in *; lia .. |]. exists y. split; [exact E|]. specialize (V [0; 0] 1 [0; 1] ltac:(cbn; lia) ltac:(lia) ltac:(cbn; lia)).
  change ([0; 0] ++ [1 * Z.of_nat (fold_right Nat.mul 1%nat [3; 2]%nat) + tile_number [3; 2]%nat [0; 1]]) with [0; 0; 7] in V. rewrite V. reflexivity.
Qed.
(* @ex *)
Lemma fused_patches_mixed_shapes_fail_ex_lem : fused_extract_patches x46 [[3; 1]; [1; 3]]%nat None = Err EType.
Proof. apply fused_patches_mixed_shapes_fail_lem. discriminate. Qed.
