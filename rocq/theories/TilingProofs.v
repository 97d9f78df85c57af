(** * Index calculus for tiling *)
From Verif Require Import Prelude NdArr ArrayUtils_model ArrayUtilsProps ResizeProps Tiling_model SpecTile.
Set Implicit Arguments.
Local Open Scope Z_scope.

Lemma inb_app s1 s2 : forall ix, inb (s1 ++ s2) ix -> exists i1 i2, ix = i1 ++ i2 /\ inb s1 i1 /\ inb s2 i2.
Proof.
  induction s1 as [|n s1 IH]; intros ix H; [exists [], ix; split; [reflexivity|]; split; [exact I | exact H]|]. destruct ix as [|i ix]; simpl in H; [contradiction|]. destruct H as (H & H').
  destruct (IH ix H') as (i1 & i2 & -> & A & B). exists (i :: i1), i2. split; [reflexivity|]. split; [split; auto | exact B].
Qed.
Lemma inb_app_intro s1 s2 i1 i2 : inb s1 i1 -> inb s2 i2 -> inb (s1 ++ s2) (i1 ++ i2).
Proof. revert i1. induction s1 as [|n s1 IH]; intros [|i i1] H1 H2; cbn [app inb] in *; try tauto. split; [apply H1 | apply IH; tauto]. Qed.
Lemma inb_last s c ix : inb (s ++ [c]) ix -> exists j cc, ix = j ++ [cc] /\ inb s j /\ (0 <= cc < Z.of_nat c).
Proof.
  intros H. destruct (inb_app _ _ _ H) as (j & [|cc [|x r]] & -> & A & B); cbn [inb] in B; try tauto. exists j, cc. tauto.
Qed.
Lemma inb_batch B s c ix : inb (B :: s ++ [c]) ix -> exists k j cc, ix = k :: j ++ [cc] /\ (0 <= k < Z.of_nat B) /\ inb s j /\ (0 <= cc < Z.of_nat c).
Proof.
  destruct ix as [|k ix]; intros H; cbn [inb] in H; [tauto|]. destruct H as (Hk & H). destruct (inb_last _ _ _ H) as (j & cc & -> & A & C). exists k, j, cc. auto.
Qed.
Lemma firstn_pre {A} (j : list A) r d : length j = d -> firstn d (j ++ r) = j.
Proof. intros <-. rewrite firstn_app, Nat.sub_diag, firstn_O, app_nil_r. apply firstn_all. Qed.
Lemma nth_post {A} (j : list A) x r d z : length j = d -> nth d (j ++ x :: r) z = x.
Proof. intros <-. rewrite app_nth2, Nat.sub_diag; [reflexivity | lia]. Qed.
Lemma upd_app_l {A} k (x : A) j r : (k < length j)%nat -> upd k x (j ++ r) = upd k x j ++ r.
Proof. revert k. induction j as [|y j IH]; intros [|k] H; cbn in *; try lia; [reflexivity|]. rewrite IH by lia. reflexivity. Qed.

(** ** row-major numbering *)
Lemma asize_nonneg s : 0 <= Z.of_nat (asize s).
Proof. lia. Qed.
Lemma asize_cons n L : Z.of_nat (asize (n :: L)) = Z.of_nat n * Z.of_nat (asize L).
Proof. change (asize (n :: L)) with (n * asize L)%nat. lia. Qed.
Lemma tflat_range L : forall b, inb L b -> 0 <= tflat L b < Z.of_nat (asize L).
Proof.
  induction L as [|n L IH]; intros [|k b] H; cbn [inb] in H; try tauto; [cbn; lia|]. destruct H as (Hk & H). specialize (IH b H). cbn [tflat]. rewrite asize_cons. nia.
Qed.
Lemma tunflat_flat L : forall b, inb L b -> tunflat L (tflat L b) = b.
Proof.
  induction L as [|n L IH]; intros [|k b] H; cbn [inb] in H; try tauto. destruct H as (Hk & H). pose proof (tflat_range _ _ H) as R. cbn [tflat tunflat].
  rewrite Z.div_add_l, (Z.div_small (tflat L b)), Z.add_0_r by lia. f_equal. rewrite Z.add_comm, Z_mod_plus_full, Z.mod_small by lia. apply IH. exact H.
Qed.
Lemma tunflat_inb L : forall k, 0 <= k < Z.of_nat (asize L) -> inb L (tunflat L k).
Proof.
  induction L as [|n L IH]; intros k H; [exact I|]. cbn [tunflat inb]. rewrite asize_cons in H. assert (Hp : 0 < Z.of_nat (asize L)) by nia.
  split; [split; [apply Z.div_pos; lia | apply Z.div_lt_upper_bound; lia]|]. apply IH. apply Z.mod_pos_bound. exact Hp.
Qed.
Lemma tflat_unflat L : forall k, 0 <= k < Z.of_nat (asize L) -> tflat L (tunflat L k) = k.
Proof.
  induction L as [|n L IH]; intros k H; [change (asize []) with 1%nat in H; cbn; lia|]. cbn [tunflat tflat]. rewrite asize_cons in H. assert (Hp : 0 < Z.of_nat (asize L)) by nia.
  rewrite IH by (apply Z.mod_pos_bound; exact Hp). rewrite (Z.div_mod k (Z.of_nat (asize L))) at 3 by lia. ring.
Qed.
Lemma tile_number_flat L : forall b, tile_number L b = tflat L b.
Proof. induction L as [|n L IH]; intros [|k b]; cbn [tile_number tflat]; try reflexivity; rewrite IH; reflexivity. Qed.
Lemma tunflat_length L k : length (tunflat L k) = length L.
Proof. revert k. induction L as [|n L IH]; intros k; cbn [tunflat length]; auto. Qed.

(** ** per-axis index maps *)
Lemma div_ix_nth m : forall ix i, length ix = length m -> (i < length m)%nat -> nth i (div_ix m ix) 0 = nth i ix 0 / Z.of_nat (nth i m 0%nat).
Proof. induction m as [|n m IH]; intros [|x ix] [|i] HL Hi; cbn in *; try lia; auto. apply IH; lia. Qed.
Lemma mod_ix_nth m : forall ix i, length ix = length m -> (i < length m)%nat -> nth i (mod_ix m ix) 0 = nth i ix 0 mod Z.of_nat (nth i m 0%nat).
Proof. induction m as [|n m IH]; intros [|x ix] [|i] HL Hi; cbn [length nth mod_ix] in *; try lia; auto. apply IH; lia. Qed.
Lemma div_ix_length m : forall ix, length ix = length m -> length (div_ix m ix) = length m.
Proof. induction m as [|n m IH]; intros [|x ix] HL; cbn in *; try lia. f_equal. apply IH. lia. Qed.
Lemma mod_ix_length m : forall ix, length ix = length m -> length (mod_ix m ix) = length m.
Proof. induction m as [|n m IH]; intros [|x ix] HL; cbn in *; try lia. f_equal. apply IH. lia. Qed.
Lemma add_ix_nth : forall a b i, length a = length b -> (i < length a)%nat -> nth i (add_ix a b) 0 = nth i a 0 + nth i b 0.
Proof. induction a as [|x a IH]; intros [|y b] [|i] HL Hi; cbn in *; try lia. apply IH; lia. Qed.
Lemma add_ix_length : forall a b, length a = length b -> length (add_ix a b) = length a.
Proof. induction a as [|x a IH]; intros [|y b] HL; cbn in *; try lia. f_equal. apply IH. lia. Qed.
Lemma upd_map_seq {A} a (x : A) f d : upd a x (map f (seq 0 d)) = map (fun i => if (i =? a)%nat then x else f i) (seq 0 d).
Proof.
  apply (list_ext_nth x); [rewrite upd_length, !map_length; reflexivity|]. intros k Hk. rewrite upd_length, map_length, seq_length in Hk.
  rewrite (@nth_map_seq _ (fun i => if (i =? a)%nat then x else f i)) by exact Hk. destruct (Nat.eqb_spec k a) as [->|Hne].
  - apply nth_upd_same. rewrite map_length, seq_length. exact Hk.
  - rewrite nth_upd_other by auto. apply nth_map_seq. exact Hk.
Qed.

(** ** blocks *)
Section Blocks.
Variables N L m : list nat.
Hypothesis HT : tiled_by N L m.
Let d := length L.
Lemma tb_L i : (i < d)%nat -> (0 < nth i L 0)%nat. Proof. intros Hi. apply HT. exact Hi. Qed.
Lemma tb_N i : (i < d)%nat -> nth i N 0%nat = (nth i L 0 * nth i m 0)%nat. Proof. intros Hi. apply HT. exact Hi. Qed.
Lemma tb_LN : length N = d. Proof. apply HT. Qed.
Lemma tb_Lm : length m = d. Proof. apply HT. Qed.
Lemma tb_ndim : layout_ndim_ok L = true.
Proof. unfold layout_ndim_ok. destruct HT as ((A & B) & _). apply andb_true_intro. split; apply Nat.leb_le; assumption. Qed.
Lemma tb_allpos : allpos L.
Proof. apply Forall_nth. intros i x Hi. rewrite (nth_indep _ x 0%nat) by exact Hi. apply tb_L. exact Hi. Qed.
Lemma block_inb b j : inb L b -> inb m j -> inb N (block_ix m b j).
Proof.
  intros Hb Hj. pose proof (inb_length _ _ Hb) as Lb. pose proof (inb_length _ _ Hj) as Lj. pose proof tb_LN as LN. pose proof tb_Lm as Lm. unfold d in *. apply inb_intro; [rewrite block_ix_length; lia|].
  intros i Hi. rewrite LN in Hi. rewrite block_ix_nth by lia. rewrite tb_N by exact Hi. pose proof (@inb_nth _ _ i Hb ltac:(lia)). pose proof (@inb_nth _ _ i Hj ltac:(lia)). nia.
Qed.
Lemma div_inb ix : inb N ix -> inb L (div_ix m ix) /\ inb m (mod_ix m ix) /\ block_ix m (div_ix m ix) (mod_ix m ix) = ix.
Proof.
  intros H. pose proof (inb_length _ _ H) as Lx. pose proof tb_LN as LN. pose proof tb_Lm as Lm. unfold d in *.
  assert (Hm : forall i, (i < d)%nat -> 0 < Z.of_nat (nth i m 0%nat) /\ 0 <= nth i ix 0 < Z.of_nat (nth i L 0%nat) * Z.of_nat (nth i m 0%nat)).
  { intros i Hi. unfold d in Hi. pose proof (@inb_nth _ _ i H ltac:(lia)) as B. rewrite tb_N in B by exact Hi. nia. }
  split; [|split].
  - apply inb_intro; [rewrite div_ix_length; lia|]. intros i Hi. rewrite div_ix_nth by lia. destruct (Hm i Hi) as (A & B). split; [apply Z.div_pos; lia | apply Z.div_lt_upper_bound; lia].
  - apply inb_intro; [apply mod_ix_length; lia|]. intros i Hi. rewrite mod_ix_nth by lia. apply Z.mod_pos_bound. apply Hm. unfold d. lia.
  - apply (list_ext_nth 0); [rewrite block_ix_length; rewrite ?div_ix_length, ?mod_ix_length; lia|].
    intros i Hi. rewrite block_ix_length in Hi by (rewrite ?div_ix_length, ?mod_ix_length; lia). rewrite block_ix_nth by (rewrite ?div_ix_length, ?mod_ix_length; lia).
    rewrite div_ix_nth, mod_ix_nth by lia. destruct (Hm i ltac:(unfold d; lia)) as (A & _). rewrite (Z.div_mod (nth i ix 0) (Z.of_nat (nth i m 0%nat))) at 3 by lia. ring.
Qed.
Lemma block_div b j : inb L b -> inb m j -> div_ix m (block_ix m b j) = b /\ mod_ix m (block_ix m b j) = j.
Proof.
  intros Hb Hj. pose proof (inb_length _ _ Hb) as Lb. pose proof (inb_length _ _ Hj) as Lj. pose proof tb_LN as LN. pose proof tb_Lm as Lm. unfold d in *.
  assert (Lx : length (block_ix m b j) = length m) by (rewrite block_ix_length; lia).
  split; apply (list_ext_nth 0).
  - rewrite div_ix_length; lia.
  - intros i Hi. rewrite div_ix_length in Hi by lia. rewrite div_ix_nth, block_ix_nth by lia. pose proof (@inb_nth _ _ i Hj ltac:(lia)). rewrite Z.div_add_l, Z.div_small by lia. lia.
  - rewrite mod_ix_length; lia.
  - intros i Hi. rewrite mod_ix_length in Hi by lia. rewrite mod_ix_nth, block_ix_nth by lia. pose proof (@inb_nth _ _ i Hj ltac:(lia)). rewrite Z.add_comm, Z_mod_plus_full. apply Z.mod_small. lia.
Qed.
Lemma combine_div : map (fun ln => (snd ln / fst ln)%nat) (combine L N) = m.
Proof.
  pose proof tb_LN as LN. pose proof tb_Lm as Lm. unfold d in *. apply (list_ext_nth 0%nat); [rewrite map_length, combine_length; lia|]. intros i Hi. rewrite map_length, combine_length in Hi.
  rewrite (nth_map' _ _ (0%nat, 0%nat) 0%nat) by (rewrite combine_length; lia). rewrite combine_nth by lia. cbn [fst snd]. rewrite tb_N by (unfold d; lia). rewrite Nat.mul_comm. apply Nat.div_mul. pose proof (@tb_L i). unfold d in *. lia.
Qed.
Lemma combine_mul : map (fun lm => (fst lm * snd lm)%nat) (combine L m) = N.
Proof.
  pose proof tb_LN as LN. pose proof tb_Lm as Lm. unfold d in *. apply (list_ext_nth 0%nat); [rewrite map_length, combine_length; lia|]. intros i Hi. rewrite map_length, combine_length in Hi.
  rewrite (nth_map' _ _ (0%nat, 0%nat) 0%nat) by (rewrite combine_length; lia). rewrite combine_nth by lia. cbn [fst snd]. rewrite tb_N by (unfold d; lia). reflexivity.
Qed.
Lemma combine_ok : forallb (fun ln => (snd ln mod fst ln =? 0)%nat) (combine L N) = true.
Proof.
  pose proof tb_LN as LN. unfold d in *. apply forallb_forall. intros (l, n) Hin. destruct (In_nth _ _ (0%nat, 0%nat) Hin) as (i & Hi & E). rewrite combine_length in Hi. rewrite combine_nth in E by lia. injection E as <- <-. cbn [fst snd].
  apply Nat.eqb_eq. rewrite tb_N by (unfold d; lia). rewrite Nat.mul_comm. apply Nat.mod_mul. pose proof (@tb_L i). unfold d in *. lia.
Qed.
Lemma layout_nz : existsb (fun l => (l =? 0)%nat) L = false.
Proof.
  apply not_true_is_false. intros H. apply existsb_exists in H. destruct H as (l & Hl & E). apply Nat.eqb_eq in E. subst. destruct (In_nth _ _ 0%nat Hl) as (i & Hi & E). pose proof (tb_L Hi). lia.
Qed.

Lemma s2b_calc A (a : arr A) c : shp a = N ++ [c] ->
  space_to_batch a L = Ok (mkarr (asize L :: m ++ [c]) (fun ix => get a (block_ix m (tunflat L (nth 0 ix 0)) (firstn d (tl ix)) ++ [nth (S d) ix 0]))).
Proof.
  intros Ha. pose proof tb_LN as LN. unfold space_to_batch. rewrite tb_ndim. cbn [negb]. unfold ndim. rewrite Ha, app_length. fold d. rewrite LN. cbn [length]. rewrite Nat.eqb_refl. cbn [negb]. rewrite layout_nz.
  rewrite firstn_pre by exact LN. rewrite combine_ok, combine_div. rewrite nth_post by exact LN. reflexivity.
Qed.
Lemma b2s_calc A (t : arr A) c : shp t = asize L :: m ++ [c] ->
  batch_to_space t L = Ok (mkarr (N ++ [c]) (fun ix => get t (tflat L (div_ix m (firstn d ix)) :: mod_ix m (firstn d ix) ++ [nth d ix 0]))).
Proof.
  intros Ht. pose proof tb_Lm as Lm. unfold batch_to_space. rewrite tb_ndim. cbn [negb]. unfold ndim. rewrite Ht. cbn [length]. rewrite app_length, Lm. cbn [length]. fold d.
  replace (S (d + 1)) with (d + 2)%nat by lia. rewrite Nat.eqb_refl. cbn [negb nth]. rewrite Nat.eqb_refl. cbn [negb tl]. rewrite firstn_pre by exact Lm. rewrite combine_mul. rewrite nth_post by exact Lm. reflexivity.
Qed.
End Blocks.

(** ** concatenation *)
Lemma upd_upd_same {A} k (x y : A) l : upd k x (upd k y l) = upd k x l.
Proof. revert k. induction l as [|z l IH]; intros [|k]; cbn; auto. f_equal. apply IH. Qed.
Lemma upd_self {A} k (z : A) l : upd k (nth k l z) l = l.
Proof. revert k. induction l as [|x l IH]; intros [|k]; cbn; auto. f_equal. apply IH. Qed.
Lemma concat_calc A (l : list (arr A)) S ax a0 : hd_error l = Some a0 -> (ax < length S)%nat -> (forall b, In b l -> exists n, shp b = upd ax n S) ->
  concatenate l (Z.of_nat ax) = Ok (mkarr (upd ax (fold_right Nat.add 0%nat (map (fun b => nth ax (shp b) 0%nat) l)) S) (concat_lines ax l a0)).
Proof.
  intros H0 Hax Hs. destruct l as [|a l]; [discriminate|]. injection H0 as ->. unfold concatenate. destruct (Hs a0 (or_introl eq_refl)) as (n0 & E0).
  unfold normalize_axis, ndim. rewrite E0, upd_length. replace (- Z.of_nat (length S) <=? Z.of_nat ax) with true by (symmetry; apply Z.leb_le; lia). replace (Z.of_nat ax <? Z.of_nat (length S)) with true by (symmetry; apply Z.ltb_lt; lia). cbn [andb bind].
  replace (Z.of_nat ax <? 0) with false by (symmetry; apply Z.ltb_ge; lia). rewrite Nat2Z.id.
  replace (forallb _ (a0 :: l)) with true.
  - f_equal. f_equal. apply upd_upd_same.
  - symmetry. apply forallb_forall. intros b Hb. destruct (Hs b Hb) as (n & E). rewrite E, upd_length, Nat.eqb_refl. cbn [andb]. apply forallb_forall. intros j _. destruct (Nat.eqb_spec j ax) as [->|Hne]; [reflexivity|]. cbn [orb]. rewrite !nth_upd_other by auto. apply Nat.eqb_refl.
Qed.

(** ** halo exchange *)
Section Halo.
Variables (A : Type) (a : arr A) (c : nat) (N L m : list nat).
Hypothesis HT : tiled_by N L m.
Let d := length L.
Definition cellF (pl : nat -> nat) (b j : list Z) : list Z :=
  map (fun i => (nth i b 0 * Z.of_nat (nth i m 0%nat) + nth i j 0 - Z.of_nat (pl i)) mod Z.of_nat (nth i N 0%nat)) (seq 0 d).
Definition padM (pl pr : nat -> nat) : list nat := map (fun i => (nth i m 0 + pl i + pr i)%nat) (seq 0 d).
Definition padded_rep (pl pr : nat -> nat) (t : arr A) : Prop :=
  shp t = asize L :: padM pl pr ++ [c] /\
  forall b j cc, inb L b -> inb (padM pl pr) j -> 0 <= cc < Z.of_nat c -> get t (tflat L b :: j ++ [cc]) = get a (cellF pl b j ++ [cc]).
Lemma padM_length pl pr : length (padM pl pr) = d.
Proof. unfold padM. rewrite map_length. apply seq_length. Qed.
Lemma padM_nth pl pr i : (i < d)%nat -> nth i (padM pl pr) 0%nat = (nth i m 0 + pl i + pr i)%nat.
Proof. intros Hi. unfold padM. rewrite (@nth_map_seq _ (fun i => (nth i m 0 + pl i + pr i)%nat)) by exact Hi. reflexivity. Qed.
Lemma cellF_eq pl pl' b j b' j' : (forall i, (i < d)%nat -> (nth i b 0 * Z.of_nat (nth i m 0%nat) + nth i j 0 - Z.of_nat (pl i)) mod Z.of_nat (nth i N 0%nat) =
   (nth i b' 0 * Z.of_nat (nth i m 0%nat) + nth i j' 0 - Z.of_nat (pl' i)) mod Z.of_nat (nth i N 0%nat)) -> cellF pl b j = cellF pl' b' j'.
Proof. intros H. unfold cellF. apply map_ext_in. intros i Hi. apply in_seq in Hi. apply H. lia. Qed.
Lemma padded_start t : shp a = N ++ [c] -> space_to_batch a L = Ok t -> padded_rep (fun _ => 0%nat) (fun _ => 0%nat) t.
Proof.
  intros Ha E. rewrite (@s2b_calc N L m HT A a c Ha) in E. injection E as <-.
  assert (EM : padM (fun _ => 0%nat) (fun _ => 0%nat) = m).
  { apply (list_ext_nth 0%nat); [rewrite padM_length; symmetry; apply (tb_Lm HT)|]. intros i Hi. rewrite padM_length in Hi. rewrite padM_nth by exact Hi. lia. }
  split; [cbn [shp]; rewrite EM; reflexivity|]. intros b j cc Hb Hj Hc. rewrite EM in Hj. cbn [get nth tl]. rewrite tunflat_flat by exact Hb.
  pose proof (inb_length _ _ Hj) as Lj. pose proof (inb_length _ _ Hb) as Lb. rewrite (tb_Lm HT) in Lj. fold d in Lj, Lb. rewrite firstn_pre by exact Lj. cbn [nth]. rewrite nth_post by exact Lj. do 2 f_equal.
  pose proof (@block_inb N L m HT b j Hb Hj) as HB. pose proof (inb_length _ _ HB) as LB. apply (list_ext_nth 0).
  - rewrite LB, (tb_LN HT). unfold cellF. rewrite map_length, seq_length. reflexivity.
  - intros i Hi. rewrite LB, (tb_LN HT) in Hi. unfold cellF. rewrite (@nth_map_seq _ (fun i => (nth i b 0 * Z.of_nat (nth i m 0%nat) + nth i j 0 - Z.of_nat 0) mod Z.of_nat (nth i N 0%nat))) by exact Hi.
    pose proof (@inb_nth _ _ i HB ltac:(rewrite (tb_LN HT); exact Hi)) as R. rewrite block_ix_nth in R |- * by (rewrite ?(tb_Lm HT); assumption). rewrite Z.mod_small; lia.
Qed.
Lemma tile_mod l n x q : 0 < l -> 0 <= n -> ((q mod l) * n + x) mod (l * n) = (q * n + x) mod (l * n).
Proof.
  intros Hl Hn. rewrite (Z.div_mod q l) at 2 by lia. replace ((l * (q / l) + q mod l) * n + x) with ((q mod l * n + x) + (q / l) * (l * n)) by ring. rewrite Z_mod_plus_full. reflexivity.
Qed.
Lemma inb_L_upd b ax k : inb L b -> (ax < d)%nat -> inb L (upd ax (k mod Z.of_nat (nth ax L 0%nat)) b).
Proof. intros Hb Hax. apply inb_upd_same; [exact Hb|]. apply Z.mod_pos_bound. pose proof (tb_L HT Hax). lia. Qed.

Lemma rolled_piece pl pr t s size ax shift : padded_rep pl pr t -> (ax < d)%nat -> pl ax = 0%nat -> pr ax = 0%nat -> (size <= nth ax m 0)%nat -> (s = 0 \/ s = Z.of_nat (nth ax m 0%nat) - Z.of_nat size) ->
  exists w, (let* x := dynamic_slice_in_dim t s size (ax + 1) in tile_roll x L shift ax) = Ok w /\ shp w = asize L :: upd ax size (padM pl pr) ++ [c] /\
    forall b j cc, inb L b -> inb (upd ax size (padM pl pr)) j -> 0 <= cc < Z.of_nat c ->
      get w (tflat L b :: j ++ [cc]) = get a (cellF pl (upd ax ((nth ax b 0 - shift) mod Z.of_nat (nth ax L 0%nat)) b) (upd ax (s + nth ax j 0) j) ++ [cc]).
Proof.
  intros (St & Vt) Hax Hpl Hpr Hsz Hs. pose proof (padM_length pl pr) as LM. pose proof (@padM_nth pl pr ax Hax) as NM. rewrite Hpl, Hpr, !Nat.add_0_r in NM.
  assert (Nax : nth (ax + 1) (shp t) 0%nat = nth ax m 0%nat).
  { rewrite St, Nat.add_1_r. cbn [nth]. rewrite app_nth1 by lia. exact NM. }
  unfold dynamic_slice_in_dim. rewrite Nax. replace (nth ax m 0 <? size)%nat with false by (symmetry; apply Nat.ltb_ge; exact Hsz). cbn [bind].
  assert (Es : Z.max 0 (Z.min s (Z.of_nat (nth ax m 0%nat - size))) = s) by lia. rewrite Es.
  assert (Sw : upd (ax + 1) size (shp t) = asize L :: upd ax size (padM pl pr) ++ [c]).
  { rewrite St, Nat.add_1_r. cbn [upd]. rewrite upd_app_l by lia. reflexivity. }
  unfold tile_roll, verify_layout, ndim. cbn [shp]. rewrite Sw. cbn [length nth]. rewrite app_length, upd_length, LM. cbn [length]. replace (S (d + 1)) with (d + 2)%nat by lia. fold d. rewrite !Nat.eqb_refl. cbn [negb orb bind]. rewrite (tb_ndim HT). cbn [negb].
  eexists; split; [reflexivity|]. split; [reflexivity|]. intros b j cc Hb Hj Hc. cbn [get nth]. rewrite tunflat_flat by exact Hb. cbn [upd]. rewrite Nat.add_1_r. cbn [nth upd].
  pose proof (inb_length _ _ Hj) as Lj. rewrite upd_length, LM in Lj. rewrite app_nth1 by lia. rewrite upd_app_l by lia.
  apply Vt; [apply inb_L_upd; auto | | exact Hc].
  pose proof (@inb_nth _ _ ax Hj ltac:(rewrite upd_length; lia)) as R. rewrite nth_upd_same in R by lia.
  apply inb_intro; [rewrite upd_length; lia|]. intros i Hi. rewrite LM in Hi. destruct (Nat.eq_dec i ax) as [->|Hne].
  - rewrite nth_upd_same by lia. rewrite NM. lia.
  - rewrite nth_upd_other by auto. pose proof (@inb_nth _ _ i Hj ltac:(rewrite upd_length; lia)) as R'. rewrite nth_upd_other in R' by auto. exact R'.
Qed.

Lemma halo_step pl pr t ax l r : padded_rep pl pr t -> (ax < d)%nat -> pl ax = 0%nat -> pr ax = 0%nat -> (l <= nth ax m 0)%nat -> (r <= nth ax m 0)%nat ->
  exists t', halo_pad_1d t L ax (l, r) = Ok t' /\ padded_rep (fun i => if (i =? ax)%nat then l else pl i) (fun i => if (i =? ax)%nat then r else pr i) t'.
Proof.
  intros Ht Hax Hpl Hpr Hl Hr. pose proof Ht as (St & Vt). pose proof (padM_length pl pr) as LM. pose proof (@padM_nth pl pr ax Hax) as NM. rewrite Hpl, Hpr, !Nat.add_0_r in NM.
  set (pl' := fun i => if (i =? ax)%nat then l else pl i). set (pr' := fun i => if (i =? ax)%nat then r else pr i).
  set (mm := nth ax m 0%nat) in *.
  assert (EM : padM pl' pr' = upd ax (mm + l + r)%nat (padM pl pr)).
  { unfold padM. rewrite upd_map_seq. apply map_ext_in. intros i _. unfold pl', pr'. destruct (Nat.eqb_spec i ax) as [->|]; reflexivity. }
  set (S0 := asize L :: padM pl pr ++ [c]).
  assert (HS0 : forall n, upd (ax + 1) n S0 = asize L :: upd ax n (padM pl pr) ++ [c]) by (intros n; unfold S0; rewrite Nat.add_1_r; cbn [upd]; rewrite upd_app_l by lia; reflexivity).
  assert (St0 : shp t = upd (ax + 1) mm S0).
  { rewrite HS0, St. do 2 f_equal. symmetry. rewrite <- NM. apply upd_self. }
  assert (HNN : forall n, nth (ax + 1) (upd (ax + 1) n S0) 0%nat = n) by (intros n; apply nth_upd_same; unfold S0; cbn [length]; rewrite app_length; lia).
  (* the values in the three regions *)
  set (G := fun b j cc => get a (cellF pl' b j ++ [cc])).
  assert (Rmid : forall b j cc, inb L b -> inb (padM pl' pr') j -> 0 <= cc < Z.of_nat c -> Z.of_nat l <= nth ax j 0 < Z.of_nat l + Z.of_nat mm -> get t (tflat L b :: upd ax (nth ax j 0 - Z.of_nat l) j ++ [cc]) = G b j cc).
  { intros b j cc Hb Hj Hc R. pose proof (inb_length _ _ Hj) as Lj. rewrite padM_length in Lj.
    rewrite Vt; [| exact Hb | | exact Hc].
    - unfold G. do 2 f_equal. apply cellF_eq. intros i Hi. unfold pl'. destruct (Nat.eqb_spec i ax) as [->|Hne]; [rewrite nth_upd_same by lia; rewrite Hpl; f_equal; lia | rewrite nth_upd_other by auto; reflexivity].
    - rewrite EM in Hj. apply inb_intro; [rewrite upd_length; lia|]. intros i Hi. rewrite LM in Hi. destruct (Nat.eq_dec i ax) as [->|Hne]; [rewrite nth_upd_same by lia; rewrite NM; lia|].
      rewrite nth_upd_other by auto. pose proof (@inb_nth _ _ i Hj ltac:(rewrite upd_length; lia)) as R'. rewrite nth_upd_other in R' by auto. exact R'. }
  assert (Rsub : forall n b j cc q, inb L b -> inb (padM pl' pr') j -> 0 <= cc < Z.of_nat c -> 0 <= q < Z.of_nat n -> inb (upd ax n (padM pl pr)) (upd ax q j)).
  { intros n b j cc q Hb Hj Hc Hq. pose proof (inb_length _ _ Hj) as Lj. rewrite padM_length in Lj. rewrite EM in Hj. apply inb_intro; [rewrite !upd_length; lia|]. intros i Hi. rewrite upd_length, LM in Hi.
    destruct (Nat.eq_dec i ax) as [->|Hne]; [rewrite !nth_upd_same by lia; exact Hq|]. rewrite !nth_upd_other by auto. pose proof (@inb_nth _ _ i Hj ltac:(rewrite upd_length; lia)) as R'. rewrite nth_upd_other in R' by auto. exact R'. }
  assert (Cax : forall b j b' j', length j = d -> length j' = d -> length b = d -> length b' = d -> (forall i, i <> ax -> nth i b' 0 = nth i b 0 /\ nth i j' 0 = nth i j 0) ->
     (nth ax b' 0 * Z.of_nat mm + nth ax j' 0) mod Z.of_nat (nth ax N 0%nat) = (nth ax b 0 * Z.of_nat mm + nth ax j 0 - Z.of_nat l) mod Z.of_nat (nth ax N 0%nat) -> cellF pl b' j' = cellF pl' b j).
  { intros b j b' j' _ _ _ _ Ho He. apply cellF_eq. intros i Hi. unfold pl'. destruct (Nat.eqb_spec i ax) as [->|Hne]; [rewrite Hpl; fold mm; rewrite Z.sub_0_r; exact He|]. destruct (Ho i Hne) as (-> & ->). reflexivity. }
  assert (HN : Z.of_nat (nth ax N 0%nat) = Z.of_nat (nth ax L 0%nat) * Z.of_nat mm) by (rewrite (tb_N HT Hax); unfold mm; lia). pose proof (tb_L HT Hax) as HLp.
  (* pieces *)
  assert (HLft : exists ls, (if (l =? 0)%nat then Ok [] else let start := Z.of_nat (nth (ax + 1) (shp t) 0%nat) - Z.of_nat l in let* ir := dynamic_slice_in_dim t start l (ax + 1) in let* ol := tile_roll ir L 1 ax in Ok [ol]) = Ok ls /\
      ((l = 0%nat /\ ls = []) \/ exists w, ls = [w] /\ shp w = upd (ax + 1) l S0 /\ forall b j cc, inb L b -> inb (padM pl' pr') j -> 0 <= cc < Z.of_nat c -> nth ax j 0 < Z.of_nat l -> get w (tflat L b :: j ++ [cc]) = G b j cc)).
  { destruct (Nat.eqb_spec l 0) as [->|Hl0]; [exists []; auto|]. cbv zeta. rewrite St0, HNN.
    destruct (@rolled_piece pl pr t (Z.of_nat mm - Z.of_nat l) l ax 1 Ht Hax Hpl Hpr Hl) as (w & Ew & Sw & Vw); [right; reflexivity|].
    destruct (dynamic_slice_in_dim t (Z.of_nat mm - Z.of_nat l) l (ax + 1)) as [x|e]; [|discriminate]. cbn [bind] in Ew |- *. rewrite Ew. cbn [bind]. exists [w]. split; [reflexivity|]. right. exists w. split; [reflexivity|]. split; [rewrite HS0; exact Sw|].
    intros b j cc Hb Hj Hc R. pose proof (inb_length _ _ Hj) as Lj. rewrite padM_length in Lj. pose proof (@inb_nth _ _ ax Hj ltac:(rewrite padM_length; exact Hax)) as Rj. pose proof (inb_length _ _ Hb) as Lb. fold d in Lb.
    pose proof (Rsub l b j cc (nth ax j 0) Hb Hj Hc ltac:(lia)) as Hj'.
    assert (Ej : upd ax (nth ax j 0) j = j) by apply upd_self.
    rewrite Ej in Hj'. rewrite Vw by auto. unfold G. do 2 f_equal. apply Cax; rewrite ?upd_length; auto.
    - intros i Hne. rewrite !nth_upd_other by auto. auto.
    - rewrite !nth_upd_same by lia. rewrite HN, tile_mod by lia. f_equal. ring. }
  assert (HRgt : exists rs, (if (r =? 0)%nat then Ok [] else let* il := dynamic_slice_in_dim t 0 r (ax + 1) in let* orr := tile_roll il L (-1) ax in Ok [orr]) = Ok rs /\
      ((r = 0%nat /\ rs = []) \/ exists w, rs = [w] /\ shp w = upd (ax + 1) r S0 /\ forall b j cc, inb L b -> inb (padM pl' pr') j -> 0 <= cc < Z.of_nat c -> Z.of_nat l + Z.of_nat mm <= nth ax j 0 ->
         get w (tflat L b :: upd ax (nth ax j 0 - Z.of_nat l - Z.of_nat mm) j ++ [cc]) = G b j cc)).
  { destruct (Nat.eqb_spec r 0) as [->|Hr0]; [exists []; auto|].
    destruct (@rolled_piece pl pr t 0 r ax (-1) Ht Hax Hpl Hpr Hr) as (w & Ew & Sw & Vw); [left; reflexivity|].
    destruct (dynamic_slice_in_dim t 0 r (ax + 1)) as [x|e]; [|discriminate]. cbn [bind] in Ew |- *. rewrite Ew. cbn [bind]. exists [w]. split; [reflexivity|]. right. exists w. split; [reflexivity|]. split; [rewrite HS0; exact Sw|].
    intros b j cc Hb Hj Hc R. pose proof (inb_length _ _ Hj) as Lj. rewrite padM_length in Lj. pose proof (@inb_nth _ _ ax Hj ltac:(rewrite padM_length; exact Hax)) as Rj. rewrite EM, nth_upd_same in Rj by lia. pose proof (inb_length _ _ Hb) as Lb. fold d in Lb.
    pose proof (Rsub r b j cc (nth ax j 0 - Z.of_nat l - Z.of_nat mm) Hb Hj Hc ltac:(lia)) as Hj'.
    rewrite Vw by auto. unfold G. do 2 f_equal. apply Cax; rewrite ?upd_length; auto.
    - intros i Hne. rewrite !nth_upd_other by auto. auto.
    - rewrite !nth_upd_same by (rewrite ?upd_length; lia). rewrite HN, tile_mod by lia. f_equal. ring. }
  destruct HLft as (ls & El & Hls). destruct HRgt as (rs & Er & Hrs). cbv zeta in El. unfold halo_pad_1d. cbv beta iota zeta. rewrite El. cbn [bind]. rewrite Er. cbn [bind].
  assert (Hlen : (ax + 1 < length S0)%nat) by (unfold S0; cbn [length]; rewrite app_length; lia).
  assert (Hall : forall q, In q (ls ++ t :: rs) -> exists n, shp q = upd (ax + 1) n S0).
  { intros q Hq. apply in_app_or in Hq. destruct Hq as [Hq | [<- | Hq]]; [| eauto |].
    - destruct Hls as [(_ & ->) | (w & -> & Sw & _)]; [destruct Hq|]. destruct Hq as [<- | []]. eauto.
    - destruct Hrs as [(_ & ->) | (w & -> & Sw & _)]; [destruct Hq|]. destruct Hq as [<- | []]. eauto. }
  assert (Hhd : exists a0, hd_error (ls ++ t :: rs) = Some a0) by (destruct ls; cbn; eauto). destruct Hhd as (a0 & Hhd).
  rewrite (@concat_calc A _ S0 (ax + 1) a0 Hhd Hlen Hall). eexists; split; [reflexivity|]. split.
  - cbn [shp]. rewrite EM, HS0. do 3 f_equal.
    destruct Hls as [(-> & ->) | (w & -> & Sw & _)]; destruct Hrs as [(-> & ->) | (w2 & -> & Sw2 & _)]; cbn [app map fold_right]; rewrite ?Sw, ?Sw2, ?St0, ?HNN; lia.
  - intros b j cc Hb Hj Hc. cbn [get]. pose proof (inb_length _ _ Hj) as Lj. rewrite padM_length in Lj. pose proof (@inb_nth _ _ ax Hj ltac:(rewrite padM_length; exact Hax)) as Rj. rewrite EM, nth_upd_same in Rj by lia.
    assert (Nj : forall j0, length j0 = d -> nth (ax + 1) (tflat L b :: j0 ++ [cc]) 0 = nth ax j0 0) by (intros j0 L0; rewrite Nat.add_1_r; cbn [nth]; apply app_nth1; lia).
    assert (Uj : forall j0 q, length j0 = d -> upd (ax + 1) q (tflat L b :: j0 ++ [cc]) = tflat L b :: upd ax q j0 ++ [cc]) by (intros j0 q L0; rewrite Nat.add_1_r; cbn [upd]; rewrite upd_app_l by lia; reflexivity).
    assert (Ej : upd ax (nth ax j 0) j = j) by apply upd_self.
    assert (UU : forall (x y : Z), upd ax x (upd ax y j) = upd ax x j) by (intros; apply upd_upd_same).
    assert (KEY : forall dd, concat_lines (ax + 1) (t :: rs) dd (tflat L b :: upd ax (nth ax j 0 - Z.of_nat l) j ++ [cc]) = G b j cc \/ nth ax j 0 < Z.of_nat l).
    { intros dd. destruct (Z_lt_ge_dec (nth ax j 0) (Z.of_nat l)) as [Hlt|Hge]; [right; exact Hlt|]. left. cbn [concat_lines]. rewrite St0, HNN. rewrite Nj by (rewrite upd_length; exact Lj). rewrite nth_upd_same by lia.
      destruct (Z.ltb_spec (nth ax j 0 - Z.of_nat l) (Z.of_nat mm)) as [H1|H1].
      - apply Rmid; auto. lia.
      - rewrite Uj by (rewrite upd_length; exact Lj). rewrite UU. destruct Hrs as [(-> & ->) | (w & -> & Sw & Vw)]; [exfalso; lia|]. cbn [concat_lines]. rewrite Sw, HNN. rewrite Nj by (rewrite upd_length; exact Lj). rewrite nth_upd_same by lia.
        replace (nth ax j 0 - Z.of_nat l - Z.of_nat mm <? Z.of_nat r) with true by (symmetry; apply Z.ltb_lt; lia). apply Vw; auto. lia. }
    destruct Hls as [(El0 & ->) | (w & -> & Sw & Vw)].
    + cbn [app]. destruct (KEY a0) as [K|K]; [|lia]. rewrite El0, Z.sub_0_r, Ej in K. rewrite K. reflexivity.
    + change ([w] ++ t :: rs) with (w :: t :: rs). remember (t :: rs) as rest. cbn [concat_lines]. subst rest. rewrite Sw, HNN, Nj by exact Lj. destruct (Z.ltb_spec (nth ax j 0) (Z.of_nat l)) as [H1|H1]; [apply Vw; auto|].
      rewrite Uj by exact Lj. destruct (KEY a0) as [K|K]; [exact K | lia].
Qed.
End Halo.
