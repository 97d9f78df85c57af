(** * Properties of the skill metrics (C61) *)
From Verif Require Import Prelude NdArr Grids_model PRep ArrayUtils_model Equations_model EquationsMoreProps InitProofs Spectral_model ArrayUtilsProps Skill_model SpecSkill.
Set Implicit Arguments.
Local Open Scope Z_scope.

(** ** Sums over some axes *)
Lemma agree_refl mask : forall ix, length ix = length mask -> agree mask ix ix.
Proof. induction mask as [|m mask IH]; intros [|i ix] H; try discriminate H; cbn; [exact I|]. split; [destruct m; auto | apply IH; cbn in H; lia]. Qed.
Lemma agree_sym mask : forall ix jx, agree mask ix jx -> agree mask jx ix.
Proof.
  induction mask as [|m mask IH]; intros [|i ix] [|j jx] H; cbn in *; try tauto. destruct H as (H1 & H2). split; [destruct m; auto | auto].
Qed.
Lemma agree_trans mask : forall ix jx kx, agree mask ix jx -> agree mask jx kx -> agree mask ix kx.
Proof.
  induction mask as [|m mask IH]; intros [|i ix] [|j jx] [|k kx] H H'; cbn in *; try tauto. destruct H as (H1 & H2), H' as (H3 & H4). split; [destruct m; congruence || auto | eauto].
Qed.
Lemma msum_ext mask : forall s f g ix, inb s ix -> length mask = length s -> (forall jx, inb s jx -> agree mask ix jx -> f jx = g jx) -> msum mask s f ix = msum mask s g ix.
Proof.
  induction mask as [|m mask IH]; intros [|n s] f g [|i ix] Hi HL H; try discriminate HL; try (cbn [inb] in Hi; tauto).
  - cbn. apply H; exact I.
  - cbn [inb] in Hi. destruct m; cbn [msum].
    + apply rsum_ext. intros j Hj. apply IH; [tauto | cbn in HL; lia |]. intros jx A B. apply H; cbn; tauto.
    + apply IH; [tauto | cbn in HL; lia |]. intros jx A B. apply H; cbn; tauto.
Qed.
Lemma msum_le mask : forall s f g ix, inb s ix -> length mask = length s -> (forall jx, inb s jx -> agree mask ix jx -> (f jx <= g jx)%R) -> (msum mask s f ix <= msum mask s g ix)%R.
Proof.
  induction mask as [|m mask IH]; intros [|n s] f g [|i ix] Hi HL H; try discriminate HL; try (cbn [inb] in Hi; tauto).
  - cbn. apply H; exact I.
  - cbn [inb] in Hi. destruct m; cbn [msum].
    + apply rsum_le. intros j Hj. apply IH; [tauto | cbn in HL; lia |]. intros jx A B. apply H; cbn; tauto.
    + apply IH; [tauto | cbn in HL; lia |]. intros jx A B. apply H; cbn; tauto.
Qed.
Lemma msum_plus mask : forall s f g ix, msum mask s (fun jx => f jx + g jx)%R ix = (msum mask s f ix + msum mask s g ix)%R.
Proof.
  induction mask as [|m mask IH]; intros [|n s] f g [|i ix]; try reflexivity; try (destruct m; reflexivity). destruct m; cbn [msum].
  - rewrite <- rsum_plus. apply rsum_ext. intros j _. apply IH.
  - apply IH.
Qed.
Lemma msum_scal mask : forall s c f ix, msum mask s (fun jx => c * f jx)%R ix = (c * msum mask s f ix)%R.
Proof.
  induction mask as [|m mask IH]; intros [|n s] c f [|i ix]; try reflexivity; try (destruct m; reflexivity). destruct m; cbn [msum].
  - rewrite <- rsum_scal. apply rsum_ext. intros j _. apply IH.
  - apply IH.
Qed.
Lemma msum_agree mask : forall s f ix jx, length mask = length s -> agree mask ix jx -> msum mask s f ix = msum mask s f jx.
Proof.
  induction mask as [|m mask IH]; intros [|n s] f [|i ix] [|j jx] HL H; cbn in HL; try discriminate HL; cbn [agree] in H; try tauto.
  destruct H as (H1 & H2). destruct m; cbn [msum].
  - apply rsum_ext. intros k _. apply IH; [lia|exact H2].
  - subst j. apply IH; [lia|exact H2].
Qed.
Lemma msum_const_mul mask s c g ix : inb s ix -> length mask = length s -> constant_along mask c -> msum mask s (fun jx => c jx * g jx)%R ix = (c ix * msum mask s g ix)%R.
Proof.
  intros Hi HL Hc. rewrite <- msum_scal. apply msum_ext; auto. intros jx _ A. rewrite (Hc ix jx A). reflexivity.
Qed.
Lemma asum_rsum' s n (f : Z -> list Z -> R) : asum s (fun ix => rsum n (fun j => f j ix)) = rsum n (fun j => asum s (f j)).
Proof.
  induction n as [|n IH]; cbn [rsum]; [apply asum_0|]. rewrite asum_plus, IH. reflexivity.
Qed.
Lemma msum_total mask : forall s f, length mask = length s -> asum (kept mask s) (msum mask s f) = asum s f.
Proof.
  induction mask as [|m mask IH]; intros [|n s] f HL; try discriminate HL; [reflexivity|]. cbn in HL. destruct m; cbn [kept asum msum].
  - cbn [rsum]. rewrite Rplus_0_l. rewrite asum_rsum'. apply rsum_ext. intros j _. apply IH. lia.
  - apply rsum_ext. intros i _. apply IH. lia.
Qed.
Lemma msum_nonneg_0 mask : forall s f ix, inb s ix -> length mask = length s -> (forall jx, inb s jx -> (0 <= f jx)%R) -> msum mask s f ix = 0%R ->
  forall jx, inb s jx -> agree mask ix jx -> f jx = 0%R.
Proof.
  induction mask as [|m mask IH]; intros [|n s] f [|i ix] Hi HL H E [|j jx] Hj Ha; cbn in HL; try discriminate HL; cbn [inb agree] in *; try tauto.
  destruct m; cbn [msum] in E.
  - assert (E0 : msum mask s (fun jx => f (j :: jx)) ix = 0%R).
    { apply (@rsum_nonneg_0 n (fun j => msum mask s (fun jx => f (j :: jx)) ix)); [|exact E|tauto]. intros k Hk.
      replace 0%R with (msum mask s (fun _ => 0 * 0)%R ix) by (rewrite msum_scal; ring). apply msum_le; [tauto|lia|]. intros kx Hkx _. rewrite Rmult_0_l. apply H. cbn. tauto. }
    apply (IH s (fun jx => f (j :: jx)) ix); try tauto; try lia. intros kx Hkx. apply H. cbn; tauto.
  - destruct Ha as (-> & Ha). apply (IH s (fun jx => f (j :: jx)) ix); try tauto; try lia. intros kx Hkx. apply H. cbn; tauto.
Qed.
Lemma msum_nonneg mask s f ix : inb s ix -> length mask = length s -> (forall jx, inb s jx -> (0 <= f jx)%R) -> (0 <= msum mask s f ix)%R.
Proof.
  intros Hi HL H. replace 0%R with (msum mask s (fun _ => 0 * 0)%R ix) by (rewrite msum_scal; ring). apply msum_le; auto. intros kx Hkx _. rewrite Rmult_0_l. auto.
Qed.
Lemma msum_one mask : forall s ix, inb s ix -> length mask = length s -> (msum mask s (fun _ => 1) ix * INR (asize (kept mask s)))%R = INR (asize s).
Proof.
  induction mask as [|m mask IH]; intros [|n s] [|i ix] Hi HL; cbn in HL; try discriminate HL; cbn [inb] in Hi; try tauto; [cbn; ring|].
  specialize (IH s ix ltac:(tauto) ltac:(lia)). destruct m; cbn [msum kept asize].
  - rewrite rsum_const. change (asize (1%nat :: kept mask s)) with (1 * asize (kept mask s))%nat. change (asize (n :: s)) with (n * asize s)%nat. rewrite !mult_INR, <- IH. simpl (INR 1). ring.
  - change (asize (n :: kept mask s)) with (n * asize (kept mask s))%nat. change (asize (n :: s)) with (n * asize s)%nat. rewrite !mult_INR, <- IH. ring.
Qed.
Lemma kept_inb mask : forall s ix, allpos s -> length mask = length s -> inb (kept mask s) ix -> inb s ix.
Proof.
  induction mask as [|m mask IH]; intros [|n s] [|i ix] Hp HL Hi; cbn in HL; try discriminate HL; cbn [kept inb] in *; try tauto.
  inversion Hp as [|? ? H0 Hp']; subst. split; [destruct m; lia | apply IH; auto; tauto].
Qed.
Lemma kept_length mask : forall s, length mask = length s -> length (kept mask s) = length s.
Proof. induction mask as [|m mask IH]; intros [|n s] HL; cbn in *; try lia. rewrite IH; lia. Qed.
Lemma kept_pos mask : forall s, allpos s -> length mask = length s -> allpos (kept mask s).
Proof.
  induction mask as [|m mask IH]; intros [|n s] Hp HL; cbn in HL; try discriminate HL; cbn [kept]; [constructor|]. inversion Hp as [|? ? H0 Hp']; subst.
  constructor; [destruct m; lia | apply IH; auto].
Qed.

(** ** Normalised states *)
Lemma norm_const mask (a : arr R) : length mask = length (shp a) -> constant_along mask (l2_norm mask a).
Proof. intros HL ix jx H. unfold l2_norm. f_equal. apply msum_agree; auto. Qed.
Lemma norm_nonneg mask a ix : (0 <= l2_norm mask a ix)%R.
Proof. apply sqrt_pos. Qed.
Lemma norm_sqr mask (a : arr R) ix : inb (shp a) ix -> length mask = length (shp a) -> (l2_norm mask a ix * l2_norm mask a ix)%R = msum mask (shp a) (fun jx => get a jx * get a jx)%R ix.
Proof. intros Hi HL. unfold l2_norm. apply sqrt_sqrt. apply msum_nonneg; auto. intros jx _. apply Rle_0_sqr. Qed.
Lemma unit_sum mask (a : arr R) ix : inb (shp a) ix -> length mask = length (shp a) -> l2_norm mask a ix <> 0%R ->
  msum mask (shp a) (fun jx => (get a jx / l2_norm mask a jx) * (get a jx / l2_norm mask a jx))%R ix = 1%R.
Proof.
  intros Hi HL Hn.
  transitivity (msum mask (shp a) (fun jx => (/ l2_norm mask a jx * / l2_norm mask a jx) * (get a jx * get a jx))%R ix); [apply msum_ext; auto; intros; unfold Rdiv; ring|].
  rewrite (@msum_const_mul mask (shp a) (fun jx => / l2_norm mask a jx * / l2_norm mask a jx)%R (fun jx => get a jx * get a jx)%R ix) by (auto; intros kx jx H; rewrite (@norm_const mask a HL kx jx H); reflexivity).
  rewrite <- norm_sqr by auto. field. exact Hn.
Qed.
Lemma group_bound mask (p t : arr R) s ix : shp p = s -> shp t = s -> inb s ix -> length mask = length s -> l2_norm mask p ix <> 0%R -> l2_norm mask t ix <> 0%R ->
  (-1 <= msum mask s (fun jx => (get p jx / l2_norm mask p jx) * (get t jx / l2_norm mask t jx)) ix <= 1)%R.
Proof.
  intros Sp St Hi HL Hp Ht. pose proof (@unit_sum mask p ix) as Up. pose proof (@unit_sum mask t ix) as Ut. rewrite Sp in Up. rewrite St in Ut. specialize (Up Hi HL Hp). specialize (Ut Hi HL Ht).
  set (P := fun jx => (get p jx / l2_norm mask p jx)%R) in *. set (T := fun jx => (get t jx / l2_norm mask t jx)%R) in *.
  change (msum mask s (fun jx => P jx * P jx)%R ix = 1%R) in Up. change (msum mask s (fun jx => T jx * T jx)%R ix = 1%R) in Ut. change (-1 <= msum mask s (fun jx => P jx * T jx)%R ix <= 1)%R.
  assert (U : msum mask s (fun jx => / 2 * (P jx * P jx) + / 2 * (T jx * T jx))%R ix = 1%R) by (rewrite msum_plus, !msum_scal, Up, Ut; lra).
  assert (L : msum mask s (fun jx => -1 * (/ 2 * (P jx * P jx) + / 2 * (T jx * T jx)))%R ix = (-1)%R) by (rewrite msum_scal, U; lra).
  split.
  - eapply Rle_trans; [apply Req_le_sym; exact L|]. apply msum_le; auto. intros jx _ _. pose proof (Rle_0_sqr (P jx + T jx)) as Q. unfold Rsqr in Q. lra.
  - eapply Rle_trans; [|apply Req_le; exact U]. apply msum_le; auto. intros jx _ _. pose proof (Rle_0_sqr (P jx - T jx)) as Q. unfold Rsqr in Q. lra.
Qed.
Lemma norm_zero mask (a : arr R) ix jx : inb (shp a) ix -> inb (shp a) jx -> length mask = length (shp a) -> agree mask ix jx -> l2_norm mask a ix = 0%R -> get a jx = 0%R.
Proof.
  intros Hi Hj HL Ha E. pose proof (@norm_sqr mask a ix Hi HL) as Q. rewrite E, Rmult_0_l in Q.
  pose proof (@msum_nonneg_0 mask (shp a) (fun jx => get a jx * get a jx)%R ix Hi HL (fun jx _ => Rle_0_sqr (get a jx)) (eq_sym Q) jx Hj Ha) as Z. cbn in Z.
  apply Rmult_integral in Z. tauto.
Qed.
Lemma norm_scaled mask (p t : arr R) c ix : shp p = shp t -> inb (shp t) ix -> length mask = length (shp t) -> constant_along mask c -> (0 <= c ix)%R ->
  (forall jx, inb (shp t) jx -> get p jx = c jx * get t jx)%R -> l2_norm mask p ix = (c ix * l2_norm mask t ix)%R.
Proof.
  intros Ss Hi HL Hc H0 H. unfold l2_norm. rewrite Ss. rewrite <- (sqrt_square (c ix)) at 1 by exact H0. rewrite <- sqrt_mult_alt by (apply Rle_0_sqr). f_equal.
  rewrite (@msum_ext mask (shp t) _ (fun jx => (fun jx => c jx * c jx) jx * (get t jx * get t jx))%R ix Hi HL) by (intros jx Hj _; rewrite (H jx Hj); ring).
  rewrite (@msum_const_mul mask (shp t) (fun jx => c jx * c jx)%R) by (auto; intros kx jx K; rewrite (Hc kx jx K); reflexivity). reflexivity.
Qed.

Definition corr_group (dims : list dimkind) (p t : arr R) (ix : list Z) : R :=
  msum (map is_state dims) (shp p) (fun ix => match get (xr_normalize dims p) ix, get (xr_normalize dims t) ix with Some x, Some y => (x * y)%R | _, _ => 0%R end) ix.
Lemma corr_group_bound dims (p t : arr R) ix : shp t = shp p -> inb (shp p) ix -> length dims = length (shp p) -> (-1 <= corr_group dims p t ix <= 1)%R.
Proof.
  intros Ss Hi HL. unfold corr_group. set (mask := map is_state dims). assert (HM : length mask = length (shp p)) by (unfold mask; rewrite map_length; exact HL).
  assert (HMt : length mask = length (shp t)) by (rewrite Ss; exact HM).
  destruct (Req_EM_T (l2_norm mask p ix) 0) as [Zp|Np]; [|destruct (Req_EM_T (l2_norm mask t ix) 0) as [Zt|Nt]].
  - rewrite (@msum_ext mask (shp p) _ (fun _ => 0 * 0)%R ix Hi HM); [rewrite msum_scal; lra|]. intros jx _ A. cbn [xr_normalize get]. fold mask.
    rewrite <- (@norm_const mask p HM ix jx A). destruct (Req_EM_T (l2_norm mask p ix) 0); [ring|contradiction].
  - rewrite (@msum_ext mask (shp p) _ (fun _ => 0 * 0)%R ix Hi HM); [rewrite msum_scal; lra|]. intros jx _ A. cbn [xr_normalize get]. fold mask.
    rewrite <- (@norm_const mask t HMt ix jx A). destruct (Req_EM_T (l2_norm mask t ix) 0); [destruct (Req_EM_T (l2_norm mask p jx) 0); ring|contradiction].
  - rewrite (@msum_ext mask (shp p) _ (fun jx => (get p jx / l2_norm mask p jx) * (get t jx / l2_norm mask t jx))%R ix Hi HM).
    + apply group_bound; auto.
    + intros jx _ A. cbn [xr_normalize get]. fold mask. rewrite <- (@norm_const mask t HMt ix jx A), <- (@norm_const mask p HM ix jx A).
      destruct (Req_EM_T (l2_norm mask p ix) 0); [contradiction|]. destruct (Req_EM_T (l2_norm mask t ix) 0); [contradiction|]. reflexivity.
Qed.
Lemma state_corr_ok dims (p t : arr R) : shp t = shp p -> length dims = length (shp p) -> allpos (shp p) ->
  exists r, state_correlation dims p t = Ok r /\ shp r = kept (map is_averaged dims) (kept (map is_state dims) (shp p)) /\
    forall ix, inb (shp r) ix -> inb (shp p) ix /\
      forall lo hi, (forall jx, inb (shp p) jx -> (lo <= corr_group dims p t jx <= hi)%R) -> (lo <= get r ix <= hi)%R.
Proof.
  intros Ss HL Hp. unfold state_correlation, ew. cbn [xr_normalize shp]. rewrite Ss, shape_eqb_refl. cbn [bind]. match goal with |- context [shp (amap2 ?f ?a ?b)] => change (shp (amap2 f a b)) with (shp p) end.
  set (s1 := kept (map is_state dims) (shp p)). set (s2 := kept (map is_averaged dims) s1).
  assert (H1 : length (map is_state dims) = length (shp p)) by (rewrite map_length; exact HL). assert (P1 : allpos s1) by (apply kept_pos; auto).
  assert (H2 : length (map is_averaged dims) = length s1) by (unfold s1; rewrite map_length, kept_length; auto). assert (P2 : allpos s2) by (apply kept_pos; auto).
  assert (Hpos : forall s, allpos s -> (0 < asize s)%nat).
  { clear. induction 1 as [|n s Hn Hs IH]; [cbn; lia|]. change (asize (n :: s)) with (n * asize s)%nat. apply Nat.mul_pos_pos; lia. }
  pose proof (Hpos s1 P1) as A1. pose proof (Hpos s2 P2) as A2. destruct (Nat.eqb_spec (asize s1) 0); [lia|]. eexists. split; [reflexivity|]. split; [reflexivity|].
  cbn [shp get]. intros ix Hi. assert (Hi1 : inb s1 ix) by (apply kept_inb with (mask := map is_averaged dims); auto).
  assert (Hi0 : inb (shp p) ix) by (apply kept_inb with (mask := map is_state dims); auto). split; [exact Hi0|]. intros lo hi H.
  pose proof (@msum_one (map is_averaged dims) s1 ix Hi1 H2) as E1. fold s2 in E1. apply lt_INR in A1, A2. cbn [INR] in A1, A2.
  set (S := msum (map is_averaged dims) s1 (msum (map is_state dims) (shp p) _) ix).
  replace (INR (asize s1) / INR (asize s2))%R with (msum (map is_averaged dims) s1 (fun _ => 1%R) ix) by (rewrite <- E1; field; lra).
  set (c := msum (map is_averaged dims) s1 (fun _ => 1%R) ix) in *. assert (Hc : (0 < c)%R).
  { apply Rmult_lt_reg_r with (INR (asize s2)); [exact A2|]. rewrite Rmult_0_l, E1. exact A1. }
  assert (Hb : forall jx, inb s1 jx -> (lo <= msum (map is_state dims) (shp p) (fun ix0 : list Z => match match get (xr_normalize dims p) ix0 with Some x => match get (xr_normalize dims t) ix0 with Some y => Some (x * y)%R | None => None end | None => None end with Some x => x | None => 0%R end) jx <= hi)%R).
  { intros jx Hj. assert (Hj0 : inb (shp p) jx) by (apply kept_inb with (mask := map is_state dims); auto). specialize (H jx Hj0). unfold corr_group in H.
    rewrite (@msum_ext (map is_state dims) (shp p) _ (fun ix => match get (xr_normalize dims p) ix, get (xr_normalize dims t) ix with Some x, Some y => (x * y)%R | _, _ => 0%R end) jx Hj0 H1); [exact H|].
    intros kx _ _. destruct (get (xr_normalize dims p) kx); [destruct (get (xr_normalize dims t) kx)|]; reflexivity. }
  assert (L : (lo * c <= S <= hi * c)%R).
  { unfold c, S. rewrite <- !msum_scal. split; apply msum_le; auto; intros jx Hj _; specialize (Hb jx Hj); cbn [xr_normalize get] in Hb; rewrite Rmult_1_r; cbn [amap2 xr_normalize get]; apply Hb. }
  split; [apply Rmult_le_reg_r with c; auto; unfold Rdiv; rewrite Rmult_assoc, Rinv_l by lra; lra | apply Rmult_le_reg_r with c; auto; unfold Rdiv; rewrite Rmult_assoc, Rinv_l by lra; lra].
Qed.
(* @prop C61 state_correlation of two arrays of equal shape (any choice of state, averaged and kept dimensions, no empty dimension) always exists and lies in [-1, 1] everywhere, even where a state vanishes. *)
Lemma state_correlation_bounds_lem : forall dims (p t : arr R), shp t = shp p -> length dims = length (shp p) -> allpos (shp p) ->
  exists r, state_correlation dims p t = Ok r /\ forall ix, inb (shp r) ix -> (-1 <= get r ix <= 1)%R.
Proof.
  intros dims p t Ss HL Hp. destruct (state_corr_ok dims p t Ss HL Hp) as (r & E & _ & H). exists r. split; [exact E|]. intros ix Hi. apply (H ix Hi).
  intros jx Hj. apply corr_group_bound; auto.
Qed.
(* @ex *)
Lemma state_correlation_bounds_ex_lem : let p := mkarr [2%nat; 3%nat] (fun ix => IZR (nth 0 ix 0 * 3 + nth 1 ix 0)%Z) in let t := afull [2%nat; 3%nat] 1%R in
  shp t = shp p /\ length [AveragedDim; StateDim] = length (shp p) /\ allpos (shp p).
Proof. repeat split; repeat constructor. Qed.
(* @prop C61 If every predicted state is a positive multiple of the corresponding target state (a different multiple for each sample and time) and no target state vanishes, state_correlation is exactly 1 everywhere. *)
Lemma state_correlation_perfect_lem : forall dims (p t : arr R) (c : list Z -> R), shp t = shp p -> length dims = length (shp p) -> allpos (shp p) ->
  constant_along (map is_state dims) c -> (forall ix, inb (shp p) ix -> (0 < c ix)%R /\ get p ix = (c ix * get t ix)%R) ->
  (forall ix, inb (shp p) ix -> exists jx, inb (shp p) jx /\ agree (map is_state dims) ix jx /\ get t jx <> 0%R) ->
  exists r, state_correlation dims p t = Ok r /\ forall ix, inb (shp r) ix -> get r ix = 1%R.
Proof.
  intros dims p t c Ss HL Hp Hc H Hz. destruct (state_corr_ok dims p t Ss HL Hp) as (r & E & _ & Hr). exists r. split; [exact E|]. intros ix Hi.
  destruct (Hr ix Hi) as (_ & B). destruct (B 1%R 1%R) as (B1 & B2); [|lra]. clear - Ss HL Hc H Hz. intros ix Hi.
  set (mask := map is_state dims) in *. assert (HM : length mask = length (shp p)) by (unfold mask; rewrite map_length; exact HL).
  assert (HMt : length mask = length (shp t)) by (rewrite Ss; exact HM).
  assert (Nt : l2_norm mask t ix <> 0%R).
  { intros Z. destruct (Hz ix Hi) as (jx & Hj & Ha & Nz). apply Nz. apply (@norm_zero mask t ix jx); rewrite ?Ss; auto. }
  assert (Ep : l2_norm mask p ix = (c ix * l2_norm mask t ix)%R).
  { apply norm_scaled; rewrite ?Ss; auto; [left; apply H; exact Hi|]. intros jx Hj. apply H. exact Hj. }
  assert (Hcx : (0 < c ix)%R) by (apply H; exact Hi).
  assert (Np : l2_norm mask p ix <> 0%R) by (rewrite Ep; apply Rmult_integral_contrapositive_currified; lra).
  assert (G : corr_group dims p t ix = 1%R); [|lra].
  unfold corr_group. fold mask. rewrite <- (@unit_sum mask t ix) by (rewrite ?Ss; auto). rewrite Ss. apply msum_ext; auto. intros jx Hj A. cbn [xr_normalize get]. fold mask.
  rewrite <- (@norm_const mask t HMt ix jx A), <- (@norm_const mask p HM ix jx A).
  destruct (Req_EM_T (l2_norm mask p ix) 0); [contradiction|]. destruct (Req_EM_T (l2_norm mask t ix) 0); [contradiction|].
  rewrite (proj2 (H jx Hj)), Ep, <- (Hc ix jx A). field. split; lra.
Qed.
(* @ex *)
Lemma state_correlation_perfect_ex_lem : let t := afull [2%nat; 3%nat] 1%R in let c := fun ix => IZR (1 + Z.abs (nth 0 ix 0)) in
  let p := mkarr [2%nat; 3%nat] c in let dims := [AveragedDim; StateDim] in
  constant_along (map is_state dims) c /\ (forall ix, inb (shp p) ix -> (0 < c ix)%R /\ get p ix = (c ix * get t ix)%R) /\
  (forall ix, inb (shp p) ix -> exists jx, inb (shp p) jx /\ agree (map is_state dims) ix jx /\ get t jx <> 0%R).
Proof.
  cbv zeta. split; [|split].
  - intros ix jx A. cbn [map is_state] in A. destruct ix as [|i ix], jx as [|j jx]; cbn [agree] in A; try tauto. destruct A as (-> & _). reflexivity.
  - intros ix _. split; [apply IZR_lt; lia|]. cbn. ring.
  - intros ix Hi. exists ix. split; [exact Hi|]. split; [apply agree_refl; apply (inb_length _ _ Hi)|]. cbn. lra.
Qed.

(** ** Correlation of one step *)
Lemma asum_empty s f : ~ allpos s -> asum s f = 0%R.
Proof.
  revert f. induction s as [|n s IH]; intros f H; [exfalso; apply H; constructor|]. cbn [asum]. destruct n as [|n]; [reflexivity|].
  rewrite (@rsum_ext (S n) _ (fun _ => 0%R)); [apply rsum_0|]. intros i _. apply IH. intros Hp. apply H. constructor; [lia|exact Hp].
Qed.
Lemma asize_pos s : (0 < asize s)%nat -> allpos s.
Proof.
  induction s as [|n s IH]; intros H; [constructor|]. change (asize (n :: s)) with (n * asize s)%nat in H. constructor; [|apply IH]; destruct n, (asize s); lia.
Qed.
Lemma asize_nonzero s : (asize s =? 0)%nat = false -> allpos s.
Proof. intros H. apply Nat.eqb_neq in H. apply asize_pos. lia. Qed.
Lemma asum_one s : asum s (fun _ => 1%R) = INR (asize s).
Proof.
  induction s as [|n s IH]; [reflexivity|]. cbn [asum]. rewrite (@rsum_ext n _ (fun _ => INR (asize s))) by (intros; apply IH). rewrite rsum_const. change (asize (n :: s)) with (n * asize s)%nat. rewrite mult_INR. reflexivity.
Qed.
Lemma normalize_axes_inv a axes a' : normalize_axes a axes = Ok a' -> shp a' = shp a /\ forall ix, inb (shp a) ix ->
  l2_norm (axes_mask (ndim a) axes) a ix <> 0%R /\ get a' ix = (get a ix / l2_norm (axes_mask (ndim a) axes) a ix)%R.
Proof.
  unfold normalize_axes. destruct (forallb _ _) eqn:F; intros E; [|discriminate]. injection E as <-. split; [reflexivity|]. intros ix Hi. split; [|reflexivity].
  rewrite forallb_forall in F. specialize (F ix (all_indices_inb _ _ Hi)). destruct (Req_EM_T _ _); [discriminate|assumption].
Qed.
Lemma normalize_axes_ok a axes : (forall ix, inb (shp a) ix -> l2_norm (axes_mask (ndim a) axes) a ix <> 0%R) ->
  normalize_axes a axes = Ok (mkarr (shp a) (fun ix => get a ix / l2_norm (axes_mask (ndim a) axes) a ix)%R).
Proof.
  intros H. unfold normalize_axes. destruct (forallb _ _) eqn:F; [reflexivity|]. exfalso. assert (X : forallb (fun ix => if Req_EM_T (l2_norm (axes_mask (ndim a) axes) a ix) 0 then false else true) (all_indices (shp a)) = true); [|rewrite F in X; discriminate X].
  apply forallb_forall. intros ix Hi. apply all_indices_sound in Hi. destruct (Req_EM_T _ _); [exfalso; apply (H ix Hi); assumption | reflexivity].
Qed.
Lemma axes_mask_length d axes : length (axes_mask d axes) = d.
Proof. unfold axes_mask. rewrite map_length, seq_length. reflexivity. Qed.
Lemma shape_eqb_true s t : shape_eqb s t = true -> s = t.
Proof. unfold shape_eqb. destruct (list_eq_dec _ _ _); [auto | discriminate]. Qed.
Lemma correlation_inv P T n ta ba r : correlation_single_step P T n ta ba = Ok r -> exists p t, 
  (exists l, slice_along_axis P (Z.of_nat ta) (PyInt n) true = Ok l /\ stack0 l = Ok p) /\ (exists l, slice_along_axis T (Z.of_nat ta) (PyInt n) true = Ok l /\ stack0 l = Ok t) /\
  shp t = shp p /\ let mask := axes_mask (ndim p) (state_axes (ndim p) ta ba) in let s := kept mask (shp p) in allpos s /\
  (forall ix, inb (shp p) ix -> l2_norm mask p ix <> 0%R /\ l2_norm mask t ix <> 0%R) /\
  r = (asum s (msum mask (shp p) (fun ix => (get p ix / l2_norm mask p ix) * (get t ix / l2_norm mask t ix))) / INR (asize s))%R.
Proof.
  unfold correlation_single_step. intros H. apply bind_Ok_inv in H. destruct H as (l & El & H). apply bind_Ok_inv in H. destruct H as (p & Ep & H).
  apply bind_Ok_inv in H. destruct H as (l' & El' & H). apply bind_Ok_inv in H. destruct H as (t & Et & H).
  apply bind_Ok_inv in H. destruct H as (p' & Ep' & H). apply bind_Ok_inv in H. destruct H as (t' & Et' & H). apply bind_Ok_inv in H. destruct H as (pr & Epr & H).
  apply normalize_axes_inv in Ep'. destruct Ep' as (Sp & Hp). apply normalize_axes_inv in Et'. destruct Et' as (St & Ht).
  unfold ew in Epr. destruct (shape_eqb (shp p') (shp t')) eqn:Es; [|discriminate]. apply shape_eqb_true in Es. injection Epr as <-.
  assert (Sh : shp t = shp p) by congruence. assert (Nd : ndim t = ndim p) by (unfold ndim; congruence). rewrite Nd in Ht.
  change (ndim (amap2 Rmult p' t')) with (ndim p') in H. assert (Nd' : ndim p' = ndim p) by (unfold ndim; congruence). rewrite Nd' in H.
  change (shp (amap2 Rmult p' t')) with (shp p') in H. rewrite Sp in H.
  exists p, t. split; [exists l; auto|]. split; [exists l'; auto|]. split; [exact Sh|]. cbv zeta. set (mask := axes_mask (ndim p) (state_axes (ndim p) ta ba)) in *.
  destruct (asize (kept mask (shp p)) =? 0)%nat eqn:E0; [discriminate|]. apply asize_nonzero in E0. split; [exact E0|].
  split; [intros ix Hi; split; [apply Hp; exact Hi | apply Ht; rewrite Sh; exact Hi]|]. injection H as <-. f_equal.
  assert (HM : length mask = length (shp p)) by (apply axes_mask_length).
  rewrite !msum_total by exact HM. apply asum_ext. intros ix Hi. cbn [amap2 get]. rewrite (proj2 (Hp ix Hi)), (proj2 (Ht ix ltac:(rewrite Sh; exact Hi))). reflexivity.
Qed.
Lemma allpos_dec s : {allpos s} + {~ allpos s}.
Proof. apply Forall_dec. intros n. apply lt_dec. Qed.
(* @prop C61 Whenever correlation_single_step returns a number it lies in [-1, 1]. *)
Lemma correlation_single_step_bounds_lem : forall trajectory target n time_axis batch_axis r, correlation_single_step trajectory target n time_axis batch_axis = Ok r -> (-1 <= r <= 1)%R.
Proof.
  intros P T n ta ba r H. apply correlation_inv in H. destruct H as (p & t & _ & _ & Sh & H). cbv zeta in H. set (mask := axes_mask (ndim p) (state_axes (ndim p) ta ba)) in *. set (s := kept mask (shp p)) in *.
  destruct H as (Ap & Hn & ->). assert (HM : length mask = length (shp p)) by (apply axes_mask_length).
  assert (A : (0 < INR (asize s))%R).
  { apply lt_0_INR. clear - Ap. induction Ap as [|k s Hk Hs IH]; [cbn; lia|]. change (asize (k :: s)) with (k * asize s)%nat. apply Nat.mul_pos_pos; lia. }
  assert (L : (-1 * INR (asize s) <= asum s (msum mask (shp p) (fun ix => (get p ix / l2_norm mask p ix) * (get t ix / l2_norm mask t ix))) <= INR (asize s))%R).
  { set (F := fun ix => ((get p ix / l2_norm mask p ix) * (get t ix / l2_norm mask t ix))%R). change (-1 * INR (asize s) <= asum s (msum mask (shp p) F) <= INR (asize s))%R.
    destruct (allpos_dec (shp p)) as [Pp|Np].
    - assert (B : forall ix, inb s ix -> (-1 <= msum mask (shp p) F ix <= 1)%R).
      { intros ix Hi. assert (Hi' : inb (shp p) ix) by (apply kept_inb with (mask := mask); auto). destruct (Hn ix Hi') as (N1 & N2). exact (@group_bound mask p t (shp p) ix eq_refl Sh Hi' HM N1 N2). }
      split.
      + rewrite <- asum_one, <- asum_scal. apply asum_le. intros ix Hi. specialize (B ix Hi). lra.
      + rewrite <- asum_one. apply asum_le. intros ix Hi. apply B. exact Hi.
    - assert (Z : asum s (msum mask (shp p) F) = 0%R) by (unfold s; rewrite msum_total by exact HM; apply asum_empty; exact Np). rewrite Z. lra. }
  split; [apply Rmult_le_reg_r with (INR (asize s)); auto; unfold Rdiv; rewrite Rmult_assoc, Rinv_l by lra; lra | apply Rmult_le_reg_r with (INR (asize s)); auto; unfold Rdiv; rewrite Rmult_assoc, Rinv_l by lra; lra].
Qed.

(** Slices and stacks of scaled trajectories. *)
Lemma slice_scaled c P axis n l : slice_along_axis (map (amap (fun x => c * x)%R) P) axis (PyInt n) true = Ok l ->
  exists l0, slice_along_axis P axis (PyInt n) true = Ok l0 /\ l = map (amap (fun x => c * x)%R) l0.
Proof.
  unfold slice_along_axis. assert (Es : same_dims (map (amap (fun x => c * x)%R) P) = same_dims P).
  { destruct P as [|a P]; [reflexivity|]. cbn [map same_dims]. clear. induction P as [|b P IH]; [reflexivity|]. cbn [map forallb]. rewrite IH. reflexivity. }
  rewrite Es. cbn [andb]. destruct (negb (same_dims P)); [discriminate|]. clear Es. revert l. induction P as [|a P IH]; intros l E; cbn [map mapM] in *.
  - injection E as <-. exists []. auto.
  - apply bind_Ok_inv in E. destruct E as (x & Ex & E). apply bind_Ok_inv in E. destruct E as (l' & El & E). injection E as <-. destruct (IH l' El) as (l0 & -> & ->).
    change (ndim (amap (fun x => c * x)%R a)) with (ndim a) in Ex. destruct (ndim a =? 0)%nat; [injection Ex as <-; cbn [bind]; eexists; split; [reflexivity|reflexivity]|].
    apply bind_Ok_inv in Ex. destruct Ex as (ax & Ea & Ex). rewrite Ea. cbn [bind]. unfold index_axis in *. cbn [amap shp] in Ex.
    destruct ((0 <=? _) && _)%bool; [|discriminate]. injection Ex as <-. cbn [bind]. eexists. split; [reflexivity|reflexivity].
Qed.
Lemma nth_map_amap (h : arr R -> arr R) (l : list (arr R)) a k : nth k (map h l) (h a) = h (nth k l a).
Proof. apply map_nth. Qed.
Lemma stack_scaled c l p : stack0 (map (amap (fun x => c * x)%R) l) = Ok p -> exists t, stack0 l = Ok t /\ shp p = shp t /\ forall ix, get p ix = (c * get t ix)%R.
Proof.
  destruct l as [|a l]; [discriminate|]. unfold stack0. intros E.
  assert (F : forallb (fun b : arr R => shape_eqb (shp b) (shp (amap (fun x => c * x)%R a))) (map (amap (fun x => c * x)%R) (a :: l)) = forallb (fun b => shape_eqb (shp b) (shp a)) (a :: l)).
  { generalize (a :: l). clear. induction l as [|b l IH]; [reflexivity|]. cbn [map forallb]. rewrite IH. reflexivity. }
  assert (G : forall k, nth k (map (amap (fun x => c * x)%R) (a :: l)) (amap (fun x => c * x)%R a) = amap (fun x => c * x)%R (nth k (a :: l) a)) by (intros k; apply nth_map_amap).
  cbn [map] in E, F, G. rewrite F in E.
  destruct (forallb (fun b => shape_eqb (shp b) (shp a)) (a :: l)); [|discriminate]. injection E as <-. eexists. split; [reflexivity|]. cbn [shp get]. split; [cbn [length]; rewrite map_length; reflexivity|].
  intros [|i ix]; [reflexivity|]. exact (f_equal (fun q => get q ix) (G (Z.to_nat i))).
Qed.
(* @prop C61 A prediction that is one positive multiple of the target everywhere has correlation_single_step exactly 1, whenever it returns a number (some entry in the compared slice). *)
Lemma correlation_of_multiple_lem : forall target c n time_axis batch_axis r, (0 < c)%R ->
  (forall l a, slice_along_axis target (Z.of_nat time_axis) (PyInt n) true = Ok l -> In a l -> allpos (shp a)) ->
  correlation_single_step (map (amap (fun x => c * x)%R) target) target n time_axis batch_axis = Ok r -> r = 1%R.
Proof.
  intros T c n ta ba r Hc Hpos H. apply correlation_inv in H. destruct H as (p & t & (l & El & Ep) & (l' & El' & Et) & Sh & H).
  apply slice_scaled in El. destruct El as (l0 & El0 & ->). rewrite El' in El0. injection El0 as <-. apply stack_scaled in Ep. destruct Ep as (t' & Et' & Sp & Gp). rewrite Et in Et'. injection Et' as <-.
  cbv zeta in H. set (mask := axes_mask (ndim p) (state_axes (ndim p) ta ba)) in *. set (s := kept mask (shp p)) in *. destruct H as (Ap & Hn & ->).
  assert (HM : length mask = length (shp p)) by (apply axes_mask_length). assert (HMt : length mask = length (shp t)) by (rewrite Sh; exact HM).
  assert (Pp : allpos (shp p)).
  { rewrite Sp. unfold stack0 in Et. destruct l' as [|a l']; [discriminate|]. destruct (forallb _ _); [|discriminate]. injection Et as <-. cbn [shp]. constructor; [cbn; lia|]. apply (Hpos _ a El'). left. reflexivity. }
  assert (A : (0 < INR (asize s))%R).
  { apply lt_0_INR. clear - Ap. induction Ap as [|k s Hk Hs IH]; [cbn; lia|]. change (asize (k :: s)) with (k * asize s)%nat. apply Nat.mul_pos_pos; lia. }
  rewrite (@asum_ext s _ (fun _ => 1%R)); [rewrite asum_one; field; lra|]. intros ix Hi. assert (Hi' : inb (shp p) ix) by (apply kept_inb with (mask := mask); auto).
  destruct (Hn ix Hi') as (N1 & N2). rewrite <- (@unit_sum mask t ix) by (rewrite ?Sh; auto). rewrite Sh. apply msum_ext; auto. intros jx Hj Aj.
  assert (Ec : l2_norm mask p ix = (c * l2_norm mask t ix)%R).
  { apply (@norm_scaled mask p t (fun _ => c) ix); rewrite ?Sh; auto; [intros kx kx' _; reflexivity | lra]. }
  rewrite <- (@norm_const mask t HMt ix jx Aj), <- (@norm_const mask p HM ix jx Aj). rewrite Gp, Ec. field. split; lra.
Qed.
Definition sk_line (a b : R) : arr R := mkarr [1%nat; 2%nat; 1%nat] (fun ix => if nth 1 ix 0 =? 0 then a else b).
Lemma sk_value a b a' b' : (0 < a * a + b * b)%R -> (0 < a' * a' + b' * b')%R ->
  correlation_single_step [sk_line a b] [sk_line a' b'] 0 0 1 = Ok ((a * a' + b * b') / (sqrt (a * a + b * b) * sqrt (a' * a' + b' * b')))%R.
Proof.
  intros H H'. unfold correlation_single_step.
  assert (E : forall x y, (let* p := slice_along_axis [sk_line x y] (Z.of_nat 0) (PyInt 0) true in stack0 p) =
    Ok (mkarr [1%nat; 2%nat; 1%nat] (fun ix => match ix with i :: ix' => get (nth (Z.to_nat i) [mkarr [2%nat; 1%nat] (fun ix => get (sk_line x y) (insert_at 0 0 ix))] (mkarr [2%nat; 1%nat] (fun ix => get (sk_line x y) (insert_at 0 0 ix)))) ix' | [] => get (sk_line x y) (insert_at 0 0 []) end))) by reflexivity.
  pose proof (E a b) as Ep. pose proof (E a' b') as Et. clear E. apply bind_Ok_inv in Ep. destruct Ep as (l & -> & Ep). apply bind_Ok_inv in Et. destruct Et as (l' & -> & Et). cbn [bind]. rewrite Ep. cbn [bind]. rewrite Et. cbn [bind]. clear Ep Et.
  set (p := mkarr [1%nat; 2%nat; 1%nat] _). set (t := mkarr [1%nat; 2%nat; 1%nat] _).
  change (ndim p) with 3%nat. change (state_axes 3 0 1) with [1%nat].
  assert (Hm : axes_mask 3 [1%nat] = [false; true; false]) by reflexivity.
  assert (N : forall x y (q : arr R), q = mkarr [1%nat; 2%nat; 1%nat] (fun ix => match ix with i :: ix' => get (nth (Z.to_nat i) [mkarr [2%nat; 1%nat] (fun ix => get (sk_line x y) (insert_at 0 0 ix))] (mkarr [2%nat; 1%nat] (fun ix => get (sk_line x y) (insert_at 0 0 ix)))) ix' | [] => get (sk_line x y) (insert_at 0 0 []) end) ->
    forall ix, inb [1%nat; 2%nat; 1%nat] ix -> l2_norm [false; true; false] q ix = sqrt (x * x + y * y)).
  { intros x y q -> ix Hi. destruct ix as [|i [|j [|k [|? ?]]]]; cbn [inb] in Hi; try tauto. assert (i = 0) by lia. assert (k = 0) by lia. subst i k.
    unfold l2_norm. cbn [shp]. cbn. f_equal. ring. }
  pose proof (N a b p eq_refl) as Np. pose proof (N a' b' t eq_refl) as Nt. clear N.
  assert (Q : (sqrt (a * a + b * b) <> 0)%R) by (apply Rgt_not_eq, sqrt_lt_R0; exact H). assert (Q' : (sqrt (a' * a' + b' * b') <> 0)%R) by (apply Rgt_not_eq, sqrt_lt_R0; exact H').
  rewrite (@normalize_axes_ok p [1%nat]) by (intros ix Hi; change (ndim p) with 3%nat; rewrite Hm, Np by exact Hi; exact Q).
  rewrite (@normalize_axes_ok t [1%nat]) by (intros ix Hi; change (ndim t) with 3%nat; rewrite Hm, Nt by exact Hi; exact Q').
  cbn [bind]. unfold ew. cbn [shp]. change (shp t) with (shp p). rewrite shape_eqb_refl. cbn [bind]. change (ndim (amap2 _ _ _)) with 3%nat. change (ndim p) with 3%nat. change (ndim t) with 3%nat. rewrite Hm.
  change (shp (amap2 _ _ _)) with [1%nat; 2%nat; 1%nat]. change (kept [false; true; false] [1%nat; 2%nat; 1%nat]) with [1%nat; 1%nat; 1%nat]. change (asize [1%nat; 1%nat; 1%nat]) with 1%nat. cbn [Nat.eqb]. f_equal.
  cbn [INR]. cbn [asum rsum msum amap2 get]. change (Z.of_nat 0) with 0. change (Z.of_nat 1) with 1.
  rewrite !Np by (cbn; lia). rewrite !Nt by (cbn; lia). unfold p, t. cbn. field. split; assumption.
Qed.
(* @ex *)
Lemma correlation_single_step_bounds_ex_lem : exists r, correlation_single_step [sk_line 1 2] [sk_line 1 1] 0 0 1 = Ok r.
Proof. eexists. apply sk_value; lra. Qed.
(* @ex *)
Lemma correlation_of_multiple_ex_lem : (0 < 3)%R /\ (exists r, correlation_single_step (map (amap (fun x => 3 * x)%R) [sk_line 1 2]) [sk_line 1 2] 0 0 1 = Ok r) /\
  (forall l a, slice_along_axis [sk_line 1 2] (Z.of_nat 0) (PyInt 0) true = Ok l -> In a l -> allpos (shp a)).
Proof.
  split; [lra|]. split.
  - assert (E : correlation_single_step (map (amap (fun x => 3 * x)%R) [sk_line 1 2]) [sk_line 1 2] 0 0 1 = correlation_single_step [sk_line 3 6] [sk_line 1 2] 0 0 1).
    { f_equal. cbn [map]. f_equal. unfold amap, sk_line. cbn [shp get]. f_equal. apply functional_extensionality. intros ix. destruct (nth 1 ix 0 =? 0); lra. }
    rewrite E. eexists. apply sk_value; lra.
  - intros l a E Ha. cbn in E. injection E as <-. destruct Ha as [<- | []]. cbn. repeat constructor.
Qed.
(* @prop C61 correlation_single_step does not correlate states: its axes are shifted by the stacking of the components, so it normalises over the batch axis. For two samples of one cell, with predictions (1, 2) and targets (1, 1), each prediction is a positive multiple of its target, but the result is 3 / sqrt 10, not 1. *)
Lemma correlation_per_sample_refuted_lem : ~ (forall (p t : arr R) (c : Z -> R) r, shp p = shp t -> (forall b, (0 < c b)%R) ->
  (forall ix, get p ix = c (nth 1 ix 0%Z) * get t ix)%R -> correlation_single_step [p] [t] 0 0 1 = Ok r -> r = 1%R).
Proof.
  intros H. pose proof (@sk_value 1 2 1 1 ltac:(lra) ltac:(lra)) as E. apply (H _ _ (fun b => if b =? 0 then 1 else 2)%R) in E; [|reflexivity | intros b; destruct (b =? 0); lra |].
  - assert (Q1 : (0 < sqrt (1 * 1 + 2 * 2))%R) by (apply sqrt_lt_R0; lra). assert (Q2 : (0 < sqrt (1 * 1 + 1 * 1))%R) by (apply sqrt_lt_R0; lra).
    rewrite <- sqrt_mult in E by lra. assert (Q : (0 < sqrt ((1 * 1 + 2 * 2) * (1 * 1 + 1 * 1)))%R) by (apply sqrt_lt_R0; lra).
    assert (E3 : (sqrt ((1 * 1 + 2 * 2) * (1 * 1 + 1 * 1)) = 3)%R).
    { apply (f_equal (fun x => x * sqrt ((1 * 1 + 2 * 2) * (1 * 1 + 1 * 1)))%R) in E. unfold Rdiv in E. rewrite Rmult_assoc, Rinv_l in E by lra. lra. }
    assert (E4 : (sqrt ((1 * 1 + 2 * 2) * (1 * 1 + 1 * 1)) * sqrt ((1 * 1 + 2 * 2) * (1 * 1 + 1 * 1)) = (1 * 1 + 2 * 2) * (1 * 1 + 1 * 1))%R) by (apply sqrt_sqrt; lra).
    rewrite E3 in E4. lra.
  - intros ix. unfold sk_line. cbn [get]. destruct (nth 1 ix 0 =? 0); lra.
Qed.
