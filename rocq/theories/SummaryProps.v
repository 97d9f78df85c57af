(** * C89: summaries of predictions *)
From Verif Require Import Prelude NdArr Grids_model PRep ArrayUtils_model Spectral_model Skill_model SpecSkill SkillProps SpectralProps Summary_model SpecSummary.
Set Implicit Arguments.
Local Open Scope R_scope.

Lemma msum_group mask : forall s f ix, length mask = length s -> inb (kept mask s) ix -> msum mask s f ix = group_sum mask s f ix.
Proof.
  induction mask as [|m mask IH]; intros [|n s] f ix HL Hix; try discriminate HL; [reflexivity|]. destruct ix as [|i ix]; [destruct Hix|]. cbn [kept inb] in Hix. destruct Hix as (Hi & Hix). assert (HL' : length mask = length s) by (cbn in HL; lia).
  unfold group_sum. destruct m; cbn [msum asum same_group orb andb].
  - apply rsum_ext. intros j Hj. rewrite (IH s (fun jx => f (j :: jx)) ix HL' Hix). reflexivity.
  - rewrite (IH s (fun jx => f (i :: jx)) ix HL' Hix). rewrite (@rsum_single n _ i Hi).
    + unfold group_sum. apply asum_ext. intros jx _. rewrite Z.eqb_refl. reflexivity.
    + intros j Hj Hne. transitivity (asum s (fun _ => 0)); [|apply asum_0]. apply asum_ext. intros jx _. replace (i =? j)%Z with false; [reflexivity|]. symmetry. apply Z.eqb_neq. congruence.
Qed.
Lemma group_sum_le mask s f h ix : (forall jx, inb s jx -> f jx <= h jx) -> group_sum mask s f ix <= group_sum mask s h ix.
Proof. intros H. apply asum_le. intros jx Hj. destruct (same_group _ _ _); [apply H; exact Hj | lra]. Qed.
Lemma group_sum_ext mask s f h ix : (forall jx, inb s jx -> f jx = h jx) -> group_sum mask s f ix = group_sum mask s h ix.
Proof. intros H. apply asum_ext. intros jx Hj. destruct (same_group _ _ _); [apply H; exact Hj | reflexivity]. Qed.
Lemma group_sum_plus mask s f h ix : group_sum mask s (fun jx => f jx + h jx) ix = group_sum mask s f ix + group_sum mask s h ix.
Proof. unfold group_sum. rewrite <- asum_plus. apply asum_ext. intros jx _. destruct (same_group _ _ _); ring. Qed.
Lemma group_sum_scal mask s c f ix : group_sum mask s (fun jx => c * f jx) ix = c * group_sum mask s f ix.
Proof. unfold group_sum. rewrite <- asum_scal. apply asum_ext. intros jx _. destruct (same_group _ _ _); ring. Qed.
Section Avg.
Variables (mask : list bool) (s : list nat).
Hypothesis (HL : length mask = length s) (Hs : (asize s =? 0)%nat = false).
Lemma count_pos ix : inb (kept mask s) ix -> 0 < group_sum mask s (fun _ => 1) ix /\ INR (asize s) / INR (asize (kept mask s)) = group_sum mask s (fun _ => 1) ix.
Proof.
  intros Hix. pose proof (asize_nonzero _ Hs) as Hp. pose proof (@kept_inb mask s ix Hp HL Hix) as Hi. pose proof (@msum_one mask s ix Hi HL) as E. rewrite (@msum_group mask s _ ix HL Hix) in E. apply Nat.eqb_neq in Hs.
  assert (H1 : 0 < INR (asize s)) by (apply lt_0_INR; lia). set (c := group_sum _ _ _ _) in *. set (k := INR (asize (kept mask s))) in *. assert (Hk : 0 <= k) by apply pos_INR.
  assert (Hc : 0 <= c) by (apply asum_nonneg; intros jx _; destruct (same_group _ _ _); lra).
  assert (k <> 0) by (intros Z; rewrite Z in E; lra). assert (c <> 0) by (intros Z; rewrite Z in E; lra). split; [lra|]. rewrite <- E. field. assumption.
Qed.
Lemma mean_eq f ix : inb (kept mask s) ix -> msum mask s f ix / (INR (asize s) / INR (asize (kept mask s))) = group_mean mask s f ix.
Proof. intros Hix. destruct (count_pos ix Hix) as (_ & E). unfold group_mean. rewrite (@msum_group mask s f ix HL Hix), E. reflexivity. Qed.
Lemma mean_le f h ix : inb (kept mask s) ix -> (forall jx, inb s jx -> f jx <= h jx) -> group_mean mask s f ix <= group_mean mask s h ix.
Proof. intros Hix H. destruct (count_pos ix Hix) as (P & _). unfold group_mean, Rdiv. apply Rmult_le_compat_r; [left; apply Rinv_0_lt_compat; exact P | apply group_sum_le; exact H]. Qed.
Lemma mean_const c ix : inb (kept mask s) ix -> group_mean mask s (fun _ => c) ix = c.
Proof. intros Hix. destruct (count_pos ix Hix) as (P & _). unfold group_mean. rewrite (@group_sum_ext mask s _ (fun _ => c * 1)) by (intros; ring). rewrite (group_sum_scal mask s c (fun _ => 1)). field. lra. Qed.
Lemma mean_plus f h ix : group_mean mask s (fun jx => f jx + h jx) ix = group_mean mask s f ix + group_mean mask s h ix.
Proof. unfold group_mean. rewrite group_sum_plus. unfold Rdiv. ring. Qed.
Lemma mean_scal c f ix : group_mean mask s (fun jx => c * f jx) ix = c * group_mean mask s f ix.
Proof. unfold group_mean. rewrite group_sum_scal. unfold Rdiv. ring. Qed.
Lemma mean_ext f h ix : (forall jx, inb s jx -> f jx = h jx) -> group_mean mask s f ix = group_mean mask s h ix.
Proof. intros H. unfold group_mean. rewrite (@group_sum_ext mask s f h) by exact H. reflexivity. Qed.
Lemma mean_zero f ix : inb (kept mask s) ix -> (forall jx, inb s jx -> 0 <= f jx) -> group_mean mask s f ix = 0 -> forall jx, inb s jx -> same_group mask ix jx = true -> f jx = 0.
Proof.
  intros Hix H E jx Hj G. destruct (count_pos ix Hix) as (P & _). unfold group_mean in E. assert (E0 : group_sum mask s f ix = 0) by (apply (Rmult_eq_reg_r (/ group_sum mask s (fun _ => 1) ix)); [unfold Rdiv in E; rewrite E; ring | apply Rinv_neq_0_compat; lra]).
  pose proof (@asum_nonneg_0 s (fun jx => if same_group mask ix jx then f jx else 0) ltac:(intros kx Hk; cbv beta; destruct (same_group mask ix kx); [apply H; exact Hk | lra]) E0 jx Hj) as Z. cbv beta in Z. rewrite G in Z. exact Z.
Qed.
End Avg.

(** ** The model in terms of group means *)
Lemma same_group_refl mask : forall ix, same_group mask ix ix = true.
Proof. induction mask as [|m mask IH]; intros [|i ix]; try reflexivity. cbn. rewrite Z.eqb_refl, IH, Bool.orb_true_r. reflexivity. Qed.
Lemma position_nth models : forall k e, NoDup models -> nth_error models k = Some e -> position e models = Some k.
Proof.
  induction models as [|x l IH]; intros [|k] e ND H; cbn in H; try discriminate H.
  - inversion H; subst. cbn. rewrite Nat.eqb_refl. reflexivity.
  - inversion ND as [|? ? N1 N2]; subst. cbn. destruct (Nat.eqb_spec x e) as [->|Hne].
    + destruct N1. exact (nth_error_In _ _ H).
    + rewrite (IH k e N2 H). reflexivity.
Qed.
Lemma position_none models e : ~ In e models -> position e models = None.
Proof. induction models as [|x l IH]; intros H; [reflexivity|]. cbn. destruct (Nat.eqb_spec x e) as [->|Hne]; [destruct H; left; reflexivity|]. rewrite IH; [reflexivity|]. intros K. apply H. right. exact K. Qed.
Lemma mask_summarised ndim d : existsb (xdim_eqb d) ([DSample] ++ map DSpace (seq 0 (Nat.min ndim 3))) = summarised ndim d.
Proof.
  cbn [app existsb]. destruct d as [| |k|k]; cbn [xdim_eqb summarised orb]; try reflexivity.
  - induction (seq 0 (Nat.min ndim 3)) as [|x l IH]; [reflexivity|exact IH].
  - rewrite <- (Bool.orb_false_r (_ && _)). assert (G : forall n b, existsb (xdim_eqb (DSpace k)) (map DSpace (seq b n)) = ((b <=? k)%nat && (k <? b + n)%nat)%bool).
    { induction n as [|n IH]; intros b; cbn [seq map existsb xdim_eqb].
      - destruct (Nat.leb_spec b k), (Nat.ltb_spec k (b + 0)); try reflexivity; lia.
      - rewrite IH. destruct (Nat.eqb_spec k b), (Nat.leb_spec (S b) k), (Nat.leb_spec b k), (Nat.ltb_spec k (S b + n)), (Nat.ltb_spec k (b + S n)); try reflexivity; lia. }
    rewrite G. cbn [Nat.leb Nat.add andb]. rewrite Bool.orb_false_r. destruct (Nat.ltb_spec k (Nat.min ndim 3)), (Nat.ltb_spec k ndim), (Nat.ltb_spec k 3); try reflexivity; lia.
  - induction (seq 0 (Nat.min ndim 3)) as [|x l IH]; [reflexivity|exact IH].
Qed.
Lemma averaged_summarised ndim dims : averaged_dims ndim [DSample] dims = map (summarised ndim) dims.
Proof. unfold averaged_dims. apply map_ext. apply mask_summarised. Qed.
Lemma average_val dims a ndim nsd mask : mask = averaged_dims ndim nsd dims -> length dims = length (shp a) -> asize (shp a) <> 0%nat ->
  exists r, average dims a ndim nsd = Ok r /\ shp r = kept mask (shp a) /\ forall ix, inb (shp r) ix -> get r ix = group_mean mask (shp a) (get a) ix.
Proof.
  intros -> HL Hs. unfold average. apply Nat.eqb_neq in Hs. rewrite Hs. eexists. split; [reflexivity|]. split; [reflexivity|]. cbn [shp get]. intros ix Hix. apply mean_eq; [unfold averaged_dims; rewrite map_length; exact HL | exact Hs | exact Hix].
Qed.
Section Sum.
Variables (models : list nat) (a : arr R) (n : nat) (s : list nat) (dims : list xdim) (ndim : nat).
Hypothesis (HM : NoDup models) (Ha : shp a = n :: s) (HL : length dims = length s) (Hs : asize s <> 0%nat).
Lemma sel_val k e : nth_error models k = Some e -> sel_model models a e = Ok (mkarr s (of_model a k)).
Proof. intros H. unfold sel_model. rewrite (@position_nth models k e HM H), Ha. reflexivity. Qed.
Lemma mean_val k e : nth_error models k = Some e ->
  exists r, mean_summary models dims a ndim e = Ok r /\ shp r = kept (map (summarised ndim) dims) s /\ forall ix, inb (shp r) ix -> get r ix = group_mean (map (summarised ndim) dims) s (of_model a k) ix.
Proof.
  intros H. unfold mean_summary. rewrite (sel_val k H). cbn [bind]. exact (@average_val dims (mkarr s (of_model a k)) ndim [DSample] _ (eq_sym (averaged_summarised ndim dims)) HL Hs).
Qed.
Lemma error_val k l e t : nth_error models k = Some e -> nth_error models l = Some t ->
  exists r, error_summary models dims a ndim e t = Ok r /\ shp r = kept (map (summarised ndim) dims) s /\ forall ix, inb (shp r) ix -> get r ix = group_mean (map (summarised ndim) dims) s (fun jx => Rabs (of_model a k jx - of_model a l jx)) ix.
Proof.
  intros H H'. unfold error_summary, absolute_error. rewrite (sel_val k H), (sel_val l H'). cbn [bind]. rewrite ew_ok by reflexivity. cbn [bind].
  exact (@average_val dims (amap Rabs (amap2 Rminus (mkarr s (of_model a k)) (mkarr s (of_model a l)))) ndim [DSample] _ (eq_sym (averaged_summarised ndim dims)) HL Hs).
Qed.
Lemma threshold_val q k l e t : nth_error models k = Some e -> nth_error models l = Some t ->
  exists r, threshold_summary models dims a ndim q e t = Ok r /\ shp r = kept (map (summarised ndim) dims) s /\ forall ix, inb (shp r) ix -> get r ix = group_mean (map (summarised ndim) dims) s (fun jx => if Rle_dec (Rabs (of_model a k jx - of_model a l jx)) q then 1 else 0) ix.
Proof.
  intros H H'. unfold threshold_summary, below_error_threshold. rewrite (sel_val k H), (sel_val l H'). cbn [bind]. rewrite ew_ok by reflexivity. cbn [bind].
  exact (@average_val dims (amap (fun x => if Rle_dec (Rabs x) q then 1 else 0)%R (amap2 Rminus (mkarr s (of_model a k)) (mkarr s (of_model a l)))) ndim [DSample] _ (eq_sym (averaged_summarised ndim dims)) HL Hs).
Qed.
End Sum.

(** ** The theorems *)
(* @prop C89 [average] of an array that is not empty keeps every dimension, gives the averaged ones size one, and holds the mean over the cells that agree on the others; of an empty array it is NaN. *)
Lemma average_value_lem : forall dims a ndim non_spatial_dims, length dims = length (shp a) ->
  (asize (shp a) = 0%nat -> average dims a ndim non_spatial_dims = Err EZeroDiv) /\
  (asize (shp a) <> 0%nat -> exists r, average dims a ndim non_spatial_dims = Ok r /\ length (shp r) = length (shp a) /\
     (forall i, (i < length dims)%nat -> nth i (shp r) 0%nat = if existsb (xdim_eqb (nth i dims DTime)) (non_spatial_dims ++ map DSpace (seq 0 (Nat.min ndim 3))) then 1%nat else nth i (shp a) 0%nat) /\
     forall ix, inb (shp r) ix -> get r ix = group_mean (map (fun d => existsb (xdim_eqb d) (non_spatial_dims ++ map DSpace (seq 0 (Nat.min ndim 3)))) dims) (shp a) (get a) ix).
Proof.
  intros dims a ndim nsd HL. split; [intros E; unfold average; rewrite E; reflexivity|]. intros Hs. destruct (@average_val dims a ndim nsd _ eq_refl HL Hs) as (r & E & S & G). exists r. rewrite S. split; [exact E|]. split; [apply kept_length; unfold averaged_dims; rewrite map_length; exact HL|].
  split; [|intros ix Hix; apply G; rewrite S; exact Hix]. intros i Hi. unfold averaged_dims. set (h := fun d => existsb _ _). change (nth i (kept (map h dims) (shp a)) 0%nat = if h (nth i dims DTime) then 1%nat else nth i (shp a) 0%nat). clearbody h. clear -HL Hi. revert i HL Hi. generalize (shp a). induction dims as [|d dims IH]; intros [|n s] i HL Hi; cbn in HL, Hi; try lia. destruct i as [|i]; cbn [map kept nth]; [reflexivity|]. apply IH; lia.
Qed.
(* @prop C89 The three summaries of a model that is present have the same cells and are the mean prediction, the mean absolute error and the fraction of the errors that are at most the threshold. *)
Lemma summary_values_lem : forall models dims s a ndim q k l e t, predictions models dims s a -> nth_error models k = Some e -> nth_error models l = Some t ->
  exists m r f, mean_summary models dims a ndim e = Ok m /\ error_summary models dims a ndim e t = Ok r /\ threshold_summary models dims a ndim q e t = Ok f /\
    shp m = shp r /\ shp f = shp r /\ (forall ix, inb (shp r) ix <-> summary_cell ndim dims s ix) /\
    forall ix, inb (shp r) ix -> get m ix = group_mean (map (summarised ndim) dims) s (of_model a k) ix /\
      get r ix = group_mean (map (summarised ndim) dims) s (fun jx => Rabs (of_model a k jx - of_model a l jx)) ix /\
      get f ix = group_fraction (map (summarised ndim) dims) s (fun jx => if Rle_dec (Rabs (of_model a k jx - of_model a l jx)) q then true else false) ix.
Proof.
  intros models dims s a ndim q k l e t (HM & Ha & HL & Hs) He Ht. destruct (@mean_val models a _ s dims ndim HM Ha HL Hs k e He) as (m & Em & Sm & Gm). destruct (@error_val models a _ s dims ndim HM Ha HL Hs k l e t He Ht) as (r & Er & Sr & Gr). destruct (@threshold_val models a _ s dims ndim HM Ha HL Hs q k l e t He Ht) as (f & Ef & Sf & Gf).
  exists m, r, f. repeat (split; [first [assumption | congruence]|]). split; [intros ix; rewrite Sr; reflexivity|]. intros ix Hix. split; [apply Gm; congruence|]. split; [apply Gr; exact Hix|]. rewrite Gf by congruence. unfold group_fraction, group_mean. f_equal. apply group_sum_ext. intros jx _. destruct (Rle_dec _ _); reflexivity.
Qed.
(* @prop C89 A model that is absent raises KeyError in every summary. *)
Lemma summary_missing_lem : forall models dims a ndim q e t, ~ In e models ->
  mean_summary models dims a ndim e = Err EIndex /\ error_summary models dims a ndim e t = Err EIndex /\ threshold_summary models dims a ndim q e t = Err EIndex /\
  (forall e', In e' models -> error_summary models dims a ndim e' e = Err EIndex /\ threshold_summary models dims a ndim q e' e = Err EIndex).
Proof.
  intros models dims a ndim q e t H. assert (E : sel_model models a e = Err EIndex) by (unfold sel_model; rewrite (@position_none models e H); reflexivity).
  unfold mean_summary, error_summary, threshold_summary, absolute_error, below_error_threshold. rewrite E. repeat (split; [reflexivity|]). intros e' _. destruct (sel_model models a e') as [p|er] eqn:E'; [cbn [bind]; split; reflexivity|]. unfold sel_model in E'. destruct (position e' models); [discriminate E'|]. inversion E'; subst. cbn [bind]. split; reflexivity.
Qed.
(* @prop C89 The mean error is nonnegative, does not depend on which of the two models is the reference, and vanishes at a cell exactly when the two predictions are equal throughout its group. *)
Lemma error_metric_lem : forall models dims s a ndim k l e t r, predictions models dims s a -> nth_error models k = Some e -> nth_error models l = Some t -> error_summary models dims a ndim e t = Ok r ->
  forall ix, summary_cell ndim dims s ix -> 0 <= get r ix /\
    (forall r', error_summary models dims a ndim t e = Ok r' -> get r' ix = get r ix) /\
    (get r ix = 0 <-> forall jx, inb s jx -> same_group (map (summarised ndim) dims) ix jx = true -> of_model a k jx = of_model a l jx).
Proof.
  intros models dims s a ndim k l e t r (HM & Ha & HL & Hs) He Ht E ix Hix. destruct (@error_val models a _ s dims ndim HM Ha HL Hs k l e t He Ht) as (r0 & Er & Sr & Gr). destruct (@error_val models a _ s dims ndim HM Ha HL Hs l k t e Ht He) as (r1 & Er' & Sr' & Gr').
  assert (r0 = r) by congruence. subst r0. unfold summary_cell in Hix. rewrite Gr by congruence. assert (HL' : length (map (summarised ndim) dims) = length s) by (rewrite map_length; exact HL). assert (Hs' := proj2 (Nat.eqb_neq _ _) Hs).
  split; [|split].
  - rewrite <- (@mean_const _ s HL' Hs' 0 ix Hix) at 1. apply mean_le; auto. intros jx _. apply Rabs_pos.
  - intros r' E'. assert (r1 = r') by congruence. subst r1. rewrite Gr' by congruence. apply mean_ext. intros jx _. apply Rabs_minus_sym.
  - split; intros H.
    + intros jx Hj G. pose proof (@mean_zero _ s HL' Hs' _ ix Hix (fun jx _ => Rabs_pos _) H jx Hj G) as Z. cbv beta in Z. destruct (Req_dec (of_model a k jx) (of_model a l jx)) as [K|K]; [exact K|]. exfalso. apply (@Rabs_no_R0 (of_model a k jx - of_model a l jx)); [lra | exact Z].
    + unfold group_mean. replace (group_sum _ s _ ix) with (group_sum (map (summarised ndim) dims) s (fun _ => 0 * 1) ix); [rewrite (@group_sum_scal _ s 0 (fun _ => 1)); unfold Rdiv; ring|]. apply asum_ext. intros jx Hj. destruct (same_group _ _ _) eqn:G; [|reflexivity]. rewrite (H jx Hj G), Rminus_diag_eq, Rabs_R0 by reflexivity. ring.
Qed.
(* @prop C89 The mean error between two models is at most the sum of their mean errors against a third one. *)
Lemma error_triangle_lem : forall models dims s a ndim k l h e t u r1 r2 r3, predictions models dims s a -> nth_error models k = Some e -> nth_error models l = Some t -> nth_error models h = Some u ->
  error_summary models dims a ndim e u = Ok r1 -> error_summary models dims a ndim e t = Ok r2 -> error_summary models dims a ndim t u = Ok r3 ->
  forall ix, summary_cell ndim dims s ix -> get r1 ix <= get r2 ix + get r3 ix.
Proof.
  intros models dims s a ndim k l h e t u r1 r2 r3 (HM & Ha & HL & Hs) He Ht Hu E1 E2 E3 ix Hix. destruct (@error_val models a _ s dims ndim HM Ha HL Hs k h e u He Hu) as (q1 & F1 & S1 & G1). destruct (@error_val models a _ s dims ndim HM Ha HL Hs k l e t He Ht) as (q2 & F2 & S2 & G2). destruct (@error_val models a _ s dims ndim HM Ha HL Hs l h t u Ht Hu) as (q3 & F3 & S3 & G3).
  assert (q1 = r1) by congruence. assert (q2 = r2) by congruence. assert (q3 = r3) by congruence. subst. unfold summary_cell in Hix. rewrite G1, G2, G3 by congruence. rewrite <- mean_plus. assert (HL' : length (map (summarised ndim) dims) = length s) by (rewrite map_length; exact HL). assert (Hs' := proj2 (Nat.eqb_neq _ _) Hs).
  apply mean_le; auto. intros jx _. replace (of_model a k jx - of_model a h jx) with ((of_model a k jx - of_model a l jx) + (of_model a l jx - of_model a h jx)) by ring. apply Rabs_triang.
Qed.
(* @prop C89 The mean predictions of two models differ by at most their mean error. *)
Lemma error_bounds_means_lem : forall models dims s a ndim k l e t m m' r, predictions models dims s a -> nth_error models k = Some e -> nth_error models l = Some t ->
  mean_summary models dims a ndim e = Ok m -> mean_summary models dims a ndim t = Ok m' -> error_summary models dims a ndim e t = Ok r ->
  forall ix, summary_cell ndim dims s ix -> Rabs (get m ix - get m' ix) <= get r ix.
Proof.
  intros models dims s a ndim k l e t m m' r (HM & Ha & HL & Hs) He Ht Em Em' Er ix Hix. destruct (@mean_val models a _ s dims ndim HM Ha HL Hs k e He) as (q1 & F1 & S1 & G1). destruct (@mean_val models a _ s dims ndim HM Ha HL Hs l t Ht) as (q2 & F2 & S2 & G2). destruct (@error_val models a _ s dims ndim HM Ha HL Hs k l e t He Ht) as (q3 & F3 & S3 & G3).
  assert (q1 = m) by congruence. assert (q2 = m') by congruence. assert (q3 = r) by congruence. subst. unfold summary_cell in Hix. rewrite G1, G2, G3 by congruence. assert (HL' : length (map (summarised ndim) dims) = length s) by (rewrite map_length; exact HL). assert (Hs' := proj2 (Nat.eqb_neq _ _) Hs).
  set (mask := map _ _) in *. replace (group_mean mask s (of_model a k) ix - group_mean mask s (of_model a l) ix) with (group_mean mask s (fun jx => of_model a k jx + (-1) * of_model a l jx) ix) by (rewrite (@mean_plus mask s (of_model a k)), mean_scal; ring).
  apply Rabs_le. split.
  - replace (- group_mean mask s (fun jx => Rabs (of_model a k jx - of_model a l jx)) ix) with (group_mean mask s (fun jx => (-1) * Rabs (of_model a k jx - of_model a l jx)) ix) by (rewrite mean_scal; ring). apply mean_le; auto. intros jx _. pose proof (Rle_abs (- (of_model a k jx - of_model a l jx))) as A. rewrite Rabs_Ropp in A. lra.
  - apply mean_le; auto. intros jx _. pose proof (Rle_abs (of_model a k jx - of_model a l jx)). lra.
Qed.
(* @prop C89 The fraction below a threshold lies between zero and one, grows with the threshold, is one exactly when every error of the group is at most the threshold, and the threshold times the remaining fraction is at most the mean error. *)
Lemma threshold_fraction_lem : forall models dims s a ndim q k l e t f, predictions models dims s a -> nth_error models k = Some e -> nth_error models l = Some t -> threshold_summary models dims a ndim q e t = Ok f ->
  forall ix, summary_cell ndim dims s ix -> 0 <= get f ix <= 1 /\
    (forall q' f', q <= q' -> threshold_summary models dims a ndim q' e t = Ok f' -> get f ix <= get f' ix) /\
    (get f ix = 1 <-> forall jx, inb s jx -> same_group (map (summarised ndim) dims) ix jx = true -> Rabs (of_model a k jx - of_model a l jx) <= q) /\
    (forall r, 0 <= q -> error_summary models dims a ndim e t = Ok r -> q * (1 - get f ix) <= get r ix).
Proof.
  intros models dims s a ndim q k l e t f (HM & Ha & HL & Hs) He Ht Ef ix Hix. destruct (@threshold_val models a _ s dims ndim HM Ha HL Hs q k l e t He Ht) as (f0 & Ef0 & Sf & Gf). assert (f0 = f) by congruence. subst f0. unfold summary_cell in Hix. rewrite Gf by congruence. assert (HL' : length (map (summarised ndim) dims) = length s) by (rewrite map_length; exact HL). assert (Hs' := proj2 (Nat.eqb_neq _ _) Hs).
  set (mask := map _ _) in *. set (P := fun jx => if Rle_dec (Rabs (of_model a k jx - of_model a l jx)) q then 1 else 0). assert (B : forall jx, 0 <= P jx <= 1) by (intros jx; unfold P; destruct (Rle_dec _ _); lra).
  split; [split|split; [|split]].
  - rewrite <- (@mean_const mask s HL' Hs' 0 ix Hix) at 1. apply mean_le; auto. intros jx _. apply B.
  - rewrite <- (@mean_const mask s HL' Hs' 1 ix Hix). apply mean_le; auto. intros jx _. apply B.
  - intros q' f' Hq E'. destruct (@threshold_val models a _ s dims ndim HM Ha HL Hs q' k l e t He Ht) as (f0 & Ef0' & Sf' & Gf'). assert (f0 = f') by congruence. subst f0. rewrite Gf' by (rewrite Sf'; exact Hix). fold mask. apply mean_le; auto. intros jx _. unfold P. destruct (Rle_dec (Rabs (of_model a k jx - of_model a l jx)) q), (Rle_dec (Rabs (of_model a k jx - of_model a l jx)) q'); lra.
  - split; intros H.
    + intros jx Hj G. assert (Z : group_mean mask s (fun jx => 1 + (-1) * P jx) ix = 0) by (rewrite (@mean_plus mask s (fun _ => 1)), mean_scal, H, (@mean_const mask s HL' Hs' 1 ix Hix); ring).
      assert (Z' := @mean_zero mask s HL' Hs' (fun jx => 1 + (-1) * P jx) ix Hix ltac:(intros kx _; cbv beta; pose proof (B kx); lra) Z jx Hj G). cbv beta in Z'. unfold P in Z'. destruct (Rle_dec _ q) as [K|K]; [exact K|lra].
    + rewrite <- (@mean_const mask s HL' Hs' 1 ix Hix). unfold group_mean. f_equal. apply asum_ext. intros jx Hj. destruct (same_group _ _ _) eqn:G; [|reflexivity]. unfold P. destruct (Rle_dec _ q) as [K|K]; [reflexivity|]. destruct K. exact (H jx Hj G).
  - intros r Hq Er. destruct (@error_val models a _ s dims ndim HM Ha HL Hs k l e t He Ht) as (r0 & Er0 & Sr & Gr). assert (r0 = r) by congruence. subst r0. rewrite Gr by (rewrite Sr; exact Hix). fold mask.
    replace (q * (1 - group_mean mask s P ix)) with (group_mean mask s (fun jx => q * (1 + (-1) * P jx)) ix) by (rewrite mean_scal, (@mean_plus mask s (fun _ => 1)), mean_scal, (@mean_const mask s HL' Hs' 1 ix Hix); ring).
    apply mean_le; auto. intros jx _. unfold P. pose proof (Rabs_pos (of_model a k jx - of_model a l jx)). destruct (Rle_dec _ q); lra.
Qed.

(** ** Examples: two models over two samples and two cells *)
Definition preds : arr R := mkarr [2; 2; 2]%nat (fun ix => match ix with [m; i; j] => if (m =? 0)%Z then 1 else IZR (i + j) | _ => 0 end).
Lemma preds_ok : predictions [7; 9]%nat [DSample; DSpace 0] [2; 2]%nat preds.
Proof. split; [repeat constructor; cbn; intuition discriminate|]. split; [reflexivity|]. split; [reflexivity|]. cbn. discriminate. Qed.
Lemma preds_error : exists r, error_summary [7; 9]%nat [DSample; DSpace 0] preds 1 7%nat 9%nat = Ok r /\ shp r = [1; 1]%nat /\ get r [0; 0]%Z = 1 / 2.
Proof.
  destruct (@error_val [7; 9]%nat preds 2 [2; 2]%nat [DSample; DSpace 0] 1 (proj1 preds_ok) eq_refl eq_refl ltac:(cbn; discriminate) 0 1 7%nat 9%nat eq_refl eq_refl) as (r & E & S & G). exists r. split; [exact E|]. split; [exact S|]. rewrite G by (rewrite S; cbn; lia).
  unfold group_mean, group_sum. cbn [asum rsum map summarised same_group Nat.ltb Nat.leb andb orb]. unfold of_model. cbn -[Rabs Rdiv Rplus]. unfold Rabs. repeat (destruct (Rcase_abs _); try lra).
Qed.
(* @ex *)
Lemma average_value_ex_lem : exists r, average [DSample; DTime; DSpace 0] (mkarr [2; 2; 2]%nat (get preds)) 1 [DSample] = Ok r /\ shp r = [1; 2; 1]%nat.
Proof. eexists. split; reflexivity. Qed.
(* @ex *)
Lemma summary_values_ex_lem : predictions [7; 9]%nat [DSample; DSpace 0] [2; 2]%nat preds /\ exists r, error_summary [7; 9]%nat [DSample; DSpace 0] preds 1 7%nat 9%nat = Ok r /\ get r [0; 0]%Z = 1 / 2.
Proof. split; [exact preds_ok|]. destruct preds_error as (r & E & _ & G). exists r. auto. Qed.
(* @ex *)
Lemma summary_missing_ex_lem : ~ In 8%nat [7; 9]%nat /\ In 9%nat [7; 9]%nat.
Proof. cbn. intuition discriminate. Qed.
(* @ex *)
Lemma error_metric_ex_lem : exists r, error_summary [7; 9]%nat [DSample; DSpace 0] preds 1 7%nat 9%nat = Ok r /\ summary_cell 1 [DSample; DSpace 0] [2; 2]%nat [0; 0]%Z /\ get r [0; 0]%Z <> 0.
Proof. destruct preds_error as (r & E & _ & G). exists r. split; [exact E|]. split; [cbn; lia|]. rewrite G. lra. Qed.
(* @ex *)
Lemma error_triangle_ex_lem : exists r1 r2, error_summary [7; 9]%nat [DSample; DSpace 0] preds 1 7%nat 9%nat = Ok r1 /\ error_summary [7; 9]%nat [DSample; DSpace 0] preds 1 7%nat 7%nat = Ok r2 /\ get r1 [0; 0]%Z <> 0.
Proof. destruct preds_error as (r & E & _ & G). destruct (@error_val [7; 9]%nat preds 2 [2; 2]%nat [DSample; DSpace 0] 1 (proj1 preds_ok) eq_refl eq_refl ltac:(cbn; discriminate) 0 0 7%nat 7%nat eq_refl eq_refl) as (r' & E' & _ & _). exists r, r'. split; [exact E|]. split; [exact E'|]. rewrite G. lra. Qed.
(* @ex *)
Lemma error_bounds_means_ex_lem : exists m m' r, mean_summary [7; 9]%nat [DSample; DSpace 0] preds 1 7%nat = Ok m /\ mean_summary [7; 9]%nat [DSample; DSpace 0] preds 1 9%nat = Ok m' /\ error_summary [7; 9]%nat [DSample; DSpace 0] preds 1 7%nat 9%nat = Ok r /\ get r [0; 0]%Z <> 0.
Proof.
  destruct preds_error as (r & E & _ & G). destruct (@mean_val [7; 9]%nat preds 2 [2; 2]%nat [DSample; DSpace 0] 1 (proj1 preds_ok) eq_refl eq_refl ltac:(cbn; discriminate) 0 7%nat eq_refl) as (m & Em & _ & _). destruct (@mean_val [7; 9]%nat preds 2 [2; 2]%nat [DSample; DSpace 0] 1 (proj1 preds_ok) eq_refl eq_refl ltac:(cbn; discriminate) 1 9%nat eq_refl) as (m' & Em' & _ & _). exists m, m', r. repeat (split; [assumption|]). rewrite G. lra.
Qed.
(* @ex *)
Lemma threshold_fraction_ex_lem : exists f, threshold_summary [7; 9]%nat [DSample; DSpace 0] preds 1 (1 / 2) 7%nat 9%nat = Ok f /\ get f [0; 0]%Z = 1 / 2.
Proof.
  destruct (@threshold_val [7; 9]%nat preds 2 [2; 2]%nat [DSample; DSpace 0] 1 (proj1 preds_ok) eq_refl eq_refl ltac:(cbn; discriminate) (1 / 2) 0 1 7%nat 9%nat eq_refl eq_refl) as (r & E & S & G). exists r. split; [exact E|]. rewrite G by (rewrite S; cbn; lia).
  unfold group_mean, group_sum. cbn [asum rsum map summarised same_group Nat.ltb Nat.leb andb orb]. unfold of_model. cbn -[Rabs Rdiv Rplus Rle_dec]. unfold Rabs. repeat (destruct (Rcase_abs _); try lra). repeat (destruct (Rle_dec _ _); try lra).
Qed.
