(** * More properties of the skill metrics (C61): losses, streaming means, temporal autocorrelation *)
From Verif Require Import Prelude NdArr Grids_model PRep ArrayUtils_model Equations_model EquationsMoreProps InitProofs Spectral_model ArrayUtilsProps Skill_model SpecSkill.
Set Implicit Arguments.
Local Open Scope Z_scope.

(** ** Losses *)
Lemma asum_slice s ax k F : (ax < length s)%nat -> 0 <= k < Z.of_nat (nth ax s 0%nat) ->
  asum (remove_at ax s) (fun ix => F (insert_at ax k ix)) = asum s (fun ix => if k =? nth ax ix 0 then F ix else 0%R).
Proof.
  revert s F. induction ax as [|ax IH]; intros [|n s] F Hl Hk; cbn [length] in Hl; try lia.
  - change (remove_at 0 (n :: s)) with s. change (asum s (fun ix => F (k :: ix)) = rsum n (fun i => asum s (fun jx => if k =? i then F (i :: jx) else 0%R))).
    rewrite (@rsum_single n _ k); [|exact Hk|].
    + apply asum_ext. intros ix _. rewrite Z.eqb_refl. reflexivity.
    + intros i _ Hne. transitivity (asum s (fun _ => 0%R)); [|apply asum_0]. apply asum_ext. intros ix _. destruct (Z.eqb_spec k i); [congruence | reflexivity].
  - change (remove_at (S ax) (n :: s)) with (n :: remove_at ax s). cbn [nth] in Hk. cbn [asum]. apply rsum_ext. intros i Hi. cbn [nth].
    rewrite <- (IH s (fun jx => F (i :: jx))) by (auto; lia). reflexivity.
Qed.
Lemma asum_first s ax m F : (ax < length s)%nat -> (m <= nth ax s 0)%nat ->
  asum (upd ax m s) F = asum s (fun ix => if nth ax ix 0 <? Z.of_nat m then F ix else 0%R).
Proof.
  revert s F. induction ax as [|ax IH]; intros [|n s] F Hl Hk; cbn [length] in Hl; try lia; cbn [nth] in Hk.
  - cbn [upd asum nth]. replace n with (m + (n - m))%nat by lia. rewrite rsum_split.
    rewrite (@rsum_ext (n - m) _ (fun _ => 0%R)); [rewrite rsum_0, Rplus_0_r|].
    + apply rsum_ext. intros i Hi. apply asum_ext. intros ix _. destruct (Z.ltb_spec i (Z.of_nat m)); [reflexivity | lia].
    + intros i Hi. transitivity (asum s (fun _ => 0%R)); [|apply asum_0]. apply asum_ext. intros ix _. destruct (Z.ltb_spec (i + Z.of_nat m) (Z.of_nat m)); [lia | reflexivity].
  - cbn [upd asum nth]. apply rsum_ext. intros i Hi. apply IH; lia.
Qed.
Lemma matched_same ax rank steps p t : matched ax rank steps p t -> same_dims p = true /\ same_dims t = true.
Proof.
  intros (Hn & _ & H). destruct H as [|a b l l' Hab H]; [congruence|]. unfold same_dims. destruct Hab as (E & L & _).
  split; apply forallb_forall; intros x Hx; apply Nat.eqb_eq; unfold ndim.
  - apply In_nth_error in Hx. destruct Hx as (k & Hk). assert (exists y, nth_error l' k = Some y) as (y & Hy).
    { destruct (nth_error l' k) eqn:Ey; [eauto|]. apply nth_error_None in Ey. apply F2_length in H. rewrite <- H in Ey. apply nth_error_None in Ey. congruence. }
    destruct (@F2_nth _ _ _ _ _ _ _ _ H Hk Hy) as (_ & -> & _). auto.
  - apply In_nth_error in Hx. destruct Hx as (k & Hk). assert (exists y, nth_error l k = Some y) as (y & Hy).
    { destruct (nth_error l k) eqn:Ey; [eauto|]. apply nth_error_None in Ey. apply F2_length in H. rewrite H in Ey. apply nth_error_None in Ey. congruence. }
    destruct (@F2_nth _ _ _ _ _ _ _ _ H Hy Hk) as (<- & -> & _). congruence.
Qed.
Lemma fold_sum l : forall x, fold_left Rplus l x = (x + rlist_sum l)%R.
Proof. induction l as [|y l IH]; intros x; cbn; [ring|]. rewrite IH. unfold rlist_sum. ring. Qed.
(** The loss for a selection that is understood on every leaf. *)
Lemma l2_select ax rank steps p t idx scale (sel : Z -> bool) (leafsel : arr R -> arr R) :
  matched ax rank steps p t ->
  (forall a, length (shp a) = rank -> nth ax (shp a) 0%nat = steps -> index_axis a ax idx = Ok (leafsel a)) ->
  (forall a b, shp a = shp b -> shp (leafsel a) = shp (leafsel b)) ->
  (forall a b, shp a = shp b -> length (shp a) = rank -> nth ax (shp a) 0%nat = steps ->
     asum (shp (leafsel a)) (fun ix => (get (leafsel a) ix - get (leafsel b) ix) * (get (leafsel a) ix - get (leafsel b) ix))%R = sq_dist_where ax sel a b) ->
  l2_loss p t idx scale (Z.of_nat ax) = Ok (scale * rlist_sum (map (fun ab => sq_dist_where ax sel (fst ab) (snd ab)) (combine p t)))%R.
Proof.
  intros M Hidx Hs Hsum. destruct (matched_same M) as (Sp & St). destruct M as (Hn & Hax & H).
  assert (Sl : forall q : list (arr R), same_dims q = true -> (forall a, In a q -> length (shp a) = rank /\ nth ax (shp a) 0%nat = steps) ->
    slice_along_axis q (Z.of_nat ax) idx true = Ok (map leafsel q)).
  { intros q Sq Hq. unfold slice_along_axis. rewrite Sq. cbn [negb andb]. clear Sq. induction q as [|a q IH]; [reflexivity|]. cbn [mapM map].
    destruct (Hq a (or_introl eq_refl)) as (La & Na).
    assert (Hd : (if (ndim a =? 0)%nat then Ok a else let* ax := normalize_axis (Z.of_nat ax) (ndim a) in index_axis a ax idx) = Ok (leafsel a)).
    { unfold normalize_axis, ndim. rewrite La. destruct (Nat.eqb_spec rank 0); [lia|]. destruct (Z.leb_spec (- Z.of_nat rank) (Z.of_nat ax)); [|lia]. destruct (Z.ltb_spec (Z.of_nat ax) (Z.of_nat rank)); [|lia]. cbn [andb bind].
      destruct (Z.ltb_spec (Z.of_nat ax) 0); [lia|]. rewrite Nat2Z.id. apply (Hidx a La Na). }
    rewrite Hd. cbn [bind]. rewrite IH by (intros; apply Hq; right; auto). reflexivity. }
  assert (Hp : forall a, In a p -> length (shp a) = rank /\ nth ax (shp a) 0%nat = steps).
  { clear - H. induction H as [|a b l l' Hab H IH]; intros x Hx; [destruct Hx|]. destruct Hx as [<- |Hx]; [tauto | auto]. }
  assert (Ht : forall a, In a t -> length (shp a) = rank /\ nth ax (shp a) 0%nat = steps).
  { clear - H. induction H as [|a b l l' Hab H IH]; intros x Hx; [destruct Hx|]. destruct Hx as [<- |Hx]; [destruct Hab as (<- & ?); tauto | auto]. }
  unfold l2_loss. rewrite (Sl p Sp Hp), (Sl t St Ht). cbn [bind]. clear Sl Sp St Hp Ht Hn.
  assert (E : mapM (fun xy => let* d := ew Rminus (fst xy) (snd xy) in Ok (total (amap (fun z => scale * (z * z))%R d))) (combine (map leafsel p) (map leafsel t)) =
    Ok (map (fun ab => (scale * sq_dist_where ax sel (fst ab) (snd ab))%R) (combine p t))).
  { induction H as [|a b l l' Hab H IH]; [reflexivity|]. cbn [map combine mapM fst snd]. destruct Hab as (Sab & La & Na). unfold ew at 1. rewrite (Hs a b Sab), shape_eqb_refl. cbn [bind].
    rewrite IH. cbn [bind]. do 2 f_equal. unfold total. cbn [amap amap2 shp get]. rewrite asum_scal. f_equal. apply Hsum; auto. }
  rewrite E. cbn [bind]. f_equal. rewrite fold_sum, Rplus_0_l. clear. induction (combine p t) as [|x l IH]; cbn [map rlist_sum fold_right]; [unfold rlist_sum; cbn; ring|].
  unfold rlist_sum in *. cbn [map fold_right]. rewrite IH. ring.
Qed.
(* @prop C61 l2_loss_single_step on trajectories with matching components (any number of components, any shapes, any time axis) is scale times the sum of squared differences over all entries of time step n, and over no others. *)
Lemma l2_single_step_value_lem : forall trajectory target n scale ax rank steps, matched ax rank steps trajectory target -> 0 <= n < Z.of_nat steps ->
  l2_loss_single_step trajectory target n scale (Z.of_nat ax) =
    Ok (scale * rlist_sum (map (fun ab => sq_dist_where ax (Z.eqb n) (fst ab) (snd ab)) (combine trajectory target)))%R.
Proof.
  intros p t n scale ax rank steps M Hn. unfold l2_loss_single_step.
  apply (@l2_select ax rank steps p t (PyInt n) scale (Z.eqb n) (fun a => mkarr (remove_at ax (shp a)) (fun ix => get a (insert_at ax n ix)))); auto.
  - intros a La Na. unfold index_axis. rewrite Na. destruct (Z.ltb_spec n 0); [lia|]. destruct (Z.leb_spec 0 n); [|lia]. destruct (Z.ltb_spec n (Z.of_nat steps)); [|lia]. reflexivity.
  - intros a b E. cbn [shp]. congruence.
  - intros a b E La Na. cbn [shp get]. unfold sq_dist_where. destruct M as (_ & Hax & _).
    apply (@asum_slice (shp a) ax n (fun ix => (get a ix - get b ix) * (get a ix - get b ix))%R); rewrite ?La, ?Na; auto.
Qed.
Definition lossv (x : R) : arr R := mkarr [2%nat; 3%nat] (fun ix => x * IZR (nth 0 ix 0%Z))%R.
Lemma lossv_matched x y : matched 1 2 3 [lossv x; lossv y] [lossv y; lossv y].
Proof. split; [discriminate|]. split; [lia|]. repeat constructor. Qed.
(* @ex *)
Lemma l2_single_step_value_ex_lem : matched 1 2 3 [lossv 1; lossv 2] [lossv 2; lossv 2] /\ 0 <= 2 < Z.of_nat 3 /\
  sq_dist_where 1 (Z.eqb 2) (lossv 1) (lossv 2) = 1%R.
Proof. split; [apply lossv_matched|]. split; [lia|]. unfold sq_dist_where, lossv. cbn [shp get]. cbn. ring. Qed.
(* @prop C61 l2_loss_cumulative with n (any nonnegative integer; None means all steps) is scale times the sum of squared differences over all entries of the first n time steps. *)
Lemma l2_cumulative_value_lem : forall trajectory target (n : option Z) scale ax rank steps, matched ax rank steps trajectory target -> (forall m, n = Some m -> 0 <= m) ->
  l2_loss_cumulative trajectory target n scale (Z.of_nat ax) =
    Ok (scale * rlist_sum (map (fun ab => sq_dist_where ax (fun k => match n with Some m => k <? m | None => true end) (fst ab) (snd ab)) (combine trajectory target)))%R.
Proof.
  intros p t n scale ax rank steps M Hn. unfold l2_loss_cumulative. pose proof M as (_ & Hax & _).
  set (c := Z.to_nat (match n with Some m => Z.min m (Z.of_nat steps) | None => Z.of_nat steps end)).
  apply (@l2_select ax rank steps p t (PySlice None n 1) scale _ (fun a => mkarr (upd ax c (shp a)) (fun ix => get a (upd ax (0 + nth ax ix 0 * 1) ix)))); auto.
  - intros a La Na. unfold index_axis. change (1 <=? 0) with false. cbv iota. rewrite Na. unfold slice_count, slice_start, slice_stop, clamp_bound. do 2 f_equal. f_equal. unfold c. f_equal. rewrite Z.div_1_r.
    destruct n as [m|]; [|lia]. specialize (Hn m eq_refl). destruct (Z.ltb_spec m 0); lia.
  - intros a b E. cbn [shp]. congruence.
  - intros a b E La Na. cbn [shp get]. unfold sq_dist_where.
    rewrite (@asum_ext (upd ax c (shp a)) _ (fun ix => (get a ix - get b ix) * (get a ix - get b ix))%R).
    2:{ intros ix Hi. replace (0 + nth ax ix 0 * 1) with (nth ax ix 0) by lia. rewrite upd_nth_same. reflexivity. }
    rewrite asum_first; rewrite ?La, ?Na; auto; [|unfold c; destruct n as [m|]; lia]. apply asum_ext. intros ix Hi.
    assert (0 <= nth ax ix 0 < Z.of_nat steps) by (rewrite <- Na; apply (@inb_nth _ _ ax Hi); rewrite La; auto).
    destruct n as [m|]; unfold c.
    + specialize (Hn m eq_refl). destruct (Z.ltb_spec (nth ax ix 0) m), (Z.ltb_spec (nth ax ix 0) (Z.of_nat (Z.to_nat (Z.min m (Z.of_nat steps))))); try reflexivity; lia.
    + destruct (Z.ltb_spec (nth ax ix 0) (Z.of_nat (Z.to_nat (Z.of_nat steps)))); [reflexivity | lia].
Qed.
(* @ex *)
Lemma l2_cumulative_value_ex_lem : matched 1 2 3 [lossv 1; lossv 2] [lossv 2; lossv 2] /\ (forall m, Some 2 = Some m -> 0 <= m) /\
  sq_dist_where 1 (fun k => k <? 2) (lossv 1) (lossv 2) = 2%R.
Proof. split; [apply lossv_matched|]. split; [intros m E; injection E as <-; lia|]. unfold sq_dist_where, lossv. cbn [shp get]. cbn. ring. Qed.
(* @prop C61 The cumulative loss over the first n steps is the sum of the n single-step losses. *)
Lemma l2_cumulative_sums_steps_lem : forall trajectory target n scale ax rank steps, matched ax rank steps trajectory target -> (n <= steps)%nat ->
  exists (loss : Z -> R), (forall k, 0 <= k < Z.of_nat n -> l2_loss_single_step trajectory target k scale (Z.of_nat ax) = Ok (loss k)) /\
    l2_loss_cumulative trajectory target (Some (Z.of_nat n)) scale (Z.of_nat ax) = Ok (rsum n loss).
Proof.
  intros p t n scale ax rank steps M Hn. eexists. split.
  - intros k Hk. apply (l2_single_step_value_lem _ M). lia.
  - rewrite (l2_cumulative_value_lem _ M) by (intros m E; injection E as <-; lia). f_equal. rewrite rsum_scal. f_equal. clear Hn.
    destruct M as (_ & Hax & H). induction H as [|a b l l' Hab H IH]; cbn [combine map rlist_sum fold_right fst snd]; [symmetry; apply rsum_0|].
    unfold rlist_sum in *. cbn [map fold_right fst snd]. rewrite rsum_plus, <- IH. f_equal. destruct Hab as (_ & La & _). clear IH H. unfold sq_dist_where.
    induction n as [|n IH].
    + cbn [rsum]. transitivity (asum (shp a) (fun _ => 0%R)); [|apply asum_0]. apply asum_ext. intros ix Hi. pose proof (@inb_nth _ _ ax Hi ltac:(rewrite La; exact Hax)). destruct (Z.ltb_spec (nth ax ix 0) (Z.of_nat 0)); [lia | reflexivity].
    + cbn [rsum]. rewrite <- IH, <- asum_plus. apply asum_ext. intros ix Hi. destruct (Z.ltb_spec (nth ax ix 0) (Z.of_nat (S n))), (Z.ltb_spec (nth ax ix 0) (Z.of_nat n)), (Z.eqb_spec (Z.of_nat n) (nth ax ix 0)); try lia; ring.
Qed.
(* @ex *)
Lemma l2_cumulative_sums_steps_ex_lem : matched 1 2 3 [lossv 1; lossv 2] [lossv 2; lossv 2] /\ (2 <= 3)%nat.
Proof. split; [apply lossv_matched | lia]. Qed.
Lemma F2_impl {X Y} (P Q : X -> Y -> Prop) l l' : (forall a b, P a b -> Q a b) -> Forall2 P l l' -> Forall2 Q l l'.
Proof. intros HI H. induction H; constructor; auto. Qed.
(* @prop C61 With a positive scale both losses are nonnegative, and the cumulative loss over all steps is zero exactly when the trajectories are equal at every entry; a single-step loss is zero exactly when they agree at that time step. *)
Lemma l2_zero_iff_equal_lem : forall trajectory target n scale ax rank steps r, matched ax rank steps trajectory target -> (0 < scale)%R -> 0 <= n < Z.of_nat steps ->
  (l2_loss_single_step trajectory target n scale (Z.of_nat ax) = Ok r -> (0 <= r)%R /\
     (r = 0%R <-> Forall2 (fun a b => forall ix, inb (shp a) ix -> nth ax ix 0%Z = n -> get a ix = get b ix) trajectory target)) /\
  (l2_loss_cumulative trajectory target None scale (Z.of_nat ax) = Ok r -> (0 <= r)%R /\
     (r = 0%R <-> Forall2 (fun a b => forall ix, inb (shp a) ix -> get a ix = get b ix) trajectory target)).
Proof.
  intros p t n scale ax rank steps r M Hc Hn.
  assert (Z : forall sel, (0 <= rlist_sum (map (fun ab => sq_dist_where ax sel (fst ab) (snd ab)) (combine p t)))%R /\
    (rlist_sum (map (fun ab => sq_dist_where ax sel (fst ab) (snd ab)) (combine p t)) = 0%R <->
     Forall2 (fun a b => forall ix, inb (shp a) ix -> sel (nth ax ix 0) = true -> get a ix = get b ix) p t)).
  { intros sel. destruct M as (_ & _ & H). induction H as [|a b l l' Hab H IH]; cbn [combine map fst snd]; [unfold rlist_sum; cbn; split; [lra|]; split; auto|].
    unfold rlist_sum in *. cbn [fold_right map fst snd]. destruct IH as (I1 & I2).
    assert (P : forall ix, inb (shp a) ix -> (0 <= (if sel (nth ax ix 0%Z) then (get a ix - get b ix) * (get a ix - get b ix) else 0))%R).
    { intros ix _. destruct (sel _); [|lra]. pose proof (Rle_0_sqr (get a ix - get b ix)). unfold Rsqr in *. lra. }
    assert (N : (0 <= sq_dist_where ax sel a b)%R) by (apply asum_nonneg; exact P). split; [lra|]. split.
    - intros E. assert (E1 : sq_dist_where ax sel a b = 0%R) by lra. constructor; [|apply I2; lra]. intros ix Hi Hs. pose proof (asum_nonneg_0 _ _ P E1 ix Hi) as E2. cbv beta in E2. rewrite Hs in E2.
      apply Rmult_integral in E2. destruct E2; lra.
    - intros F. inversion F as [|? ? ? ? F1 F2]; subst. assert (E1 : sq_dist_where ax sel a b = 0%R).
      { unfold sq_dist_where. transitivity (asum (shp a) (fun _ => 0%R)); [|apply asum_0]. apply asum_ext. intros ix Hi. destruct (sel (nth ax ix 0)) eqn:Es; [|reflexivity]. rewrite (F1 ix Hi Es). ring. }
      apply I2 in F2. lra. }
  assert (S : forall x : R, (scale * x = 0 <-> x = 0)%R) by (intros x; split; [intros E; apply Rmult_integral in E; lra | intros ->; ring]).
  split; intros E.
  - rewrite (l2_single_step_value_lem _ M Hn) in E. injection E as <-. destruct (Z (Z.eqb n)) as (Z1 & Z2). split; [apply Rmult_le_pos; lra|]. rewrite S, Z2.
    split; intros F; (eapply F2_impl; [|exact F]; cbv beta; intros a b Hab ix Hi He; apply Hab; auto); [apply Z.eqb_eq; auto | apply Z.eqb_eq in He; auto].
  - rewrite (l2_cumulative_value_lem _ M) in E by discriminate. injection E as <-. destruct (Z (fun _ => true)) as (Z1 & Z2). split; [apply Rmult_le_pos; lra|]. rewrite S, Z2.
    split; intros F; (eapply F2_impl; [|exact F]; cbv beta; intros a b Hab ix Hi); auto.
Qed.
(* @ex *)
Lemma l2_zero_iff_equal_ex_lem : matched 1 2 3 [lossv 1; lossv 2] [lossv 2; lossv 2] /\ (0 < 2)%R /\ 0 <= 2 < Z.of_nat 3.
Proof. split; [apply lossv_matched|]. split; [lra | lia]. Qed.

(** ** Means over batches *)
Lemma dict_add_lookup m k v j : lookup0 (dict_add m k v) j = (lookup0 m j + if (j =? k)%nat then v else 0)%R.
Proof.
  induction m as [|[k' w] m IH]; cbn [dict_add lookup0].
  - destruct (j =? k)%nat; ring.
  - destruct (Nat.eqb_spec k k') as [->|Hne]; cbn [lookup0].
    + destruct (j =? k')%nat; ring.
    + destruct (Nat.eqb_spec j k') as [->|Hj]; [|exact IH]. destruct (Nat.eqb_spec k' k); [congruence|]. ring.
Qed.
Lemma dict_fold_lookup l : NoDup (map fst l) -> forall m j, lookup0 (fold_left (fun m kv => dict_add m (fst kv) (snd kv)) l m) j = (lookup0 m j + lookup0 l j)%R.
Proof.
  induction l as [|[k v] l IH]; intros Hd m j; cbn [fold_left lookup0]; [ring|]. cbn [map fst] in Hd. inversion Hd as [|? ? Hn Hd']; subst. rewrite IH by exact Hd'. cbn [fst snd]. rewrite dict_add_lookup.
  destruct (Nat.eqb_spec j k) as [->|Hj]; [|ring]. assert (E : lookup0 l k = 0%R); [|rewrite E; ring]. clear - Hn. induction l as [|[k' w] l IH]; [reflexivity|]. cbn [lookup0 map fst] in *. destruct (Nat.eqb_spec k k') as [->|_]; [exfalso; apply Hn; left; reflexivity|]. apply IH. intros Hi. apply Hn. right. exact Hi.
Qed.
Lemma dict_add_keys m k v x : In x (map fst (dict_add m k v)) <-> x = k \/ In x (map fst m).
Proof.
  induction m as [|[k' w] m IH]; cbn [dict_add map fst In]; [split; intros [<- | []]; auto|]. destruct (Nat.eqb_spec k k') as [->|Hne]; cbn [map fst In]; [intuition (subst; auto)|]. rewrite IH. tauto.
Qed.
Lemma dict_fold_keys l : forall m x, In x (map fst (fold_left (fun m kv => dict_add m (fst kv) (snd kv)) l m)) <-> In x (map fst l) \/ In x (map fst m).
Proof.
  induction l as [|[k v] l IH]; intros m x; cbn [fold_left map fst In]; [tauto|]. rewrite IH, dict_add_keys. cbn [fst]. split; [intros [?|[->|?]] | intros [[<- |?]|?]]; auto.
Qed.
Lemma stream_fold {B} (eval_fn : B -> list (nat * R)) batches : (forall b, In b batches -> NoDup (map fst (eval_fn b))) -> forall m c,
  let acc := fold_left (fun acc batch => (fold_left (fun m kv => dict_add m (fst kv) (snd kv)) (eval_fn batch) (fst acc), (snd acc + 1)%nat)) batches (m, c) in
  snd acc = (c + length batches)%nat /\ (forall j, lookup0 (fst acc) j = (lookup0 m j + rlist_sum (map (fun b => lookup0 (eval_fn b) j) batches))%R) /\
  (forall x, In x (map fst (fst acc)) <-> In x (map fst m) \/ exists b, In b batches /\ In x (map fst (eval_fn b))).
Proof.
  induction batches as [|b bs IH]; intros Hd m c; cbv zeta.
  - cbn [fold_left fst snd length map]. unfold rlist_sum. cbn. split; [lia|]. split; [intros; ring|]. intros x. split; [auto|]. intros [?|(b & [] & _)]; auto.
  - cbn [fold_left fst snd length map]. specialize (IH (fun b' Hb => Hd b' (or_intror Hb)) (fold_left (fun m kv => dict_add m (fst kv) (snd kv)) (eval_fn b) m) (c + 1)%nat). cbv zeta in IH. destruct IH as (I1 & I2 & I3).
    split; [rewrite I1; lia|]. split; [intros j; rewrite I2, dict_fold_lookup by (apply Hd; left; reflexivity); unfold rlist_sum; cbn [fold_right]; ring|].
    intros x. rewrite I3, dict_fold_keys. split.
    + intros [[?|?]|(b' & ? & ?)]; auto; right; [exists b | exists b']; cbn; auto.
    + intros [?|(b' & [<- | ?] & ?)]; auto; right; eauto.
Qed.
(* @prop C61 streaming_mean over any nonempty sequence of batches returns, under each key, the sum over all batches of the metric's value divided by the number of batches (a key absent from a batch counts as 0), and exactly the keys some batch reported; over no batches it raises. *)
Lemma streaming_mean_value_lem : forall (B : Type) (batches : list B) (eval_fn : B -> list (nat * R)),
  (forall b, In b batches -> NoDup (map fst (eval_fn b))) ->
  (batches = [] -> streaming_mean batches eval_fn = Err EValue) /\
  (batches <> [] -> exists means, streaming_mean batches eval_fn = Ok means /\
     (forall k, lookup0 means k = (rlist_sum (map (fun b => lookup0 (eval_fn b) k) batches) / INR (length batches))%R) /\
     (forall k, In k (map fst means) <-> exists b, In b batches /\ In k (map fst (eval_fn b)))).
Proof.
  intros B batches f Hd. destruct (stream_fold f batches Hd [] 0%nat) as (S1 & S2 & S3). split; [intros ->; reflexivity|]. intros Hne. unfold streaming_mean.
  rewrite S1. cbn [plus]. destruct (Nat.eqb_spec (length batches) 0) as [E|_]; [destruct batches; [congruence | discriminate E]|]. eexists. split; [reflexivity|]. split.
  - intros k. rewrite <- (Rplus_0_l (rlist_sum _)). change 0%R with (lookup0 [] k) at 1. rewrite <- S2. generalize (fst (fold_left (fun acc batch => (fold_left (fun m kv => dict_add m (fst kv) (snd kv)) (f batch) (fst acc), (snd acc + 1)%nat)) batches ([], 0%nat))).
    intros m. induction m as [|[k' v] m IH]; cbn [map lookup0 fst snd]; [unfold Rdiv; ring|]. destruct (k =? k')%nat; [reflexivity | exact IH].
  - intros k. rewrite map_map. cbn [fst]. rewrite S3. split; [intros [[]|?]; auto | auto].
Qed.
(* @ex *)
Lemma streaming_mean_value_ex_lem : let f := fun b : nat => if (b =? 0)%nat then [(7%nat, 1%R)] else [(7%nat, 2%R); (8%nat, 5%R)] in
  (forall b, In b [0%nat; 1%nat] -> NoDup (map fst (f b))) /\ [0%nat; 1%nat] <> [].
Proof. split; [|discriminate]. intros b [<- |[<- | []]]; cbn; [constructor; [tauto | constructor]|]. constructor; [cbn; lia|]. constructor; [tauto | constructor]. Qed.

(** ** Temporal autocorrelation *)
Lemma rsum_drop n d (f : Z -> R) : (d <= n)%nat -> rsum n (fun t => if Z.of_nat d <=? t then f t else 0%R) = rsum (n - d) (fun t => f (t + Z.of_nat d)).
Proof.
  intros H. replace n with (d + (n - d))%nat at 1 by lia. rewrite rsum_split. rewrite (@rsum_ext d _ (fun _ => 0%R)), rsum_0, Rplus_0_l.
  - apply rsum_ext. intros i Hi. destruct (Z.leb_spec (Z.of_nat d) (i + Z.of_nat d)); [reflexivity | lia].
  - intros i Hi. destruct (Z.leb_spec (Z.of_nat d) i); [lia | reflexivity].
Qed.
(* @prop C61 temporal_autocorrelation of any signal of T >= 2 samples with a positive time step dt: entry k is (1/T) times the sum of u(t) u(t + d) over all t with t + d < T, where d = k * max(1, floor(1/dt)), for exactly the d below T; and no entry exceeds the entry for displacement 0 in absolute value. *)
Lemma temporal_autocorrelation_value_lem : forall (T : nat) (time u : Z -> R), (2 <= T)%nat -> (time 0%Z < time 1%Z)%R ->
  exists count corr, temporal_autocorrelation T time u = Ok (count, corr) /\
    let d := fun k => k * Z.max 1 (Int_part (1 / (time 1%Z - time 0%Z))) in
    (forall k, 0 <= k -> (k < Z.of_nat count <-> d k < Z.of_nat T)) /\
    forall k, 0 <= k < Z.of_nat count ->
      corr k = (rsum (T - Z.to_nat (d k)) (fun t => u t * u (t + d k)%Z) / INR T)%R /\ (Rabs (corr k) <= corr 0%Z)%R.
Proof.
  intros T time u HT Ht. unfold temporal_autocorrelation. destruct (Nat.ltb_spec T 2); [lia|]. destruct (Req_EM_T (time 1%Z - time 0%Z)%R 0); [lra|]. do 2 eexists. split; [reflexivity|]. cbv zeta.
  assert (Ei : py_int_R (1 / (time 1%Z - time 0%Z)) = Int_part (1 / (time 1%Z - time 0%Z))).
  { unfold py_int_R. destruct (Rlt_dec _ 0) as [L|]; [|reflexivity]. exfalso. assert (0 < 1 / (time 1%Z - time 0%Z))%R by (apply Rdiv_lt_0_compat; lra). lra. }
  rewrite Ei. clear Ei. set (sub := Z.max 1 (Int_part (1 / (time 1%Z - time 0%Z)))). assert (Hs : 1 <= sub) by (unfold sub; lia).
  assert (Cnt : forall k, 0 <= k -> (k < Z.of_nat (Z.to_nat ((Z.of_nat T + sub - 1) / sub)) <-> k * sub < Z.of_nat T)).
  { intros k Hk. rewrite Z2Nat.id by (apply Z.div_pos; lia). pose proof (Z.div_mod (Z.of_nat T + sub - 1) sub ltac:(lia)) as D. pose proof (Z.mod_pos_bound (Z.of_nat T + sub - 1) sub ltac:(lia)) as Bd. split; intros; nia. }
  split; [exact Cnt|].
  assert (Val : forall k, 0 <= k -> k * sub < Z.of_nat T -> rsum T (fun t => if k * sub <=? t then (u ((t - k * sub) mod Z.of_nat T) * u t / INR T)%R else 0%R) = (rsum (T - Z.to_nat (k * sub)) (fun t => u t * u (t + k * sub)%Z) / INR T)%R).
  { intros k Hk Hd. set (d := k * sub) in *. assert (0 <= d) by (unfold d; nia). transitivity (rsum T (fun t => if Z.of_nat (Z.to_nat d) <=? t then (u ((t - d) mod Z.of_nat T) * u t / INR T)%R else 0%R)); [rewrite Z2Nat.id by lia; reflexivity|].
    rewrite (@rsum_drop T (Z.to_nat d) (fun t => u ((t - d) mod Z.of_nat T) * u t / INR T)%R) by lia. unfold Rdiv. rewrite <- rsum_scal_r. apply rsum_ext. intros i Hi. rewrite Z2Nat.id by lia.
    replace (i + d - d) with i by lia. rewrite Z.mod_small by lia. reflexivity. }
  assert (P : (0 < INR T)%R) by (apply lt_0_INR; lia).
  intros k Hk. pose proof (proj1 (Cnt k ltac:(lia)) (proj2 Hk)) as Hd. rewrite (Val k) by lia. split; [reflexivity|]. rewrite (Val 0) by lia.
  set (d := k * sub) in *. assert (0 <= d) by (unfold d; nia). cbn [Z.mul]. change (Z.to_nat 0) with 0%nat. rewrite Nat.sub_0_r.
  assert (Sq : (rsum (T - Z.to_nat d) (fun t => u t * u t) <= rsum T (fun t => u t * u (t + 0)%Z))%R).
  { replace T with ((T - Z.to_nat d) + Z.to_nat d)%nat at 2 by lia. rewrite rsum_split. rewrite (@rsum_ext (T - Z.to_nat d) (fun t => u t * u (t + 0)%Z)%R (fun t => u t * u t)%R) by (intros; rewrite Z.add_0_r; reflexivity).
    assert (0 <= rsum (Z.to_nat d) (fun i => u (i + Z.of_nat (T - Z.to_nat d))%Z * u (i + Z.of_nat (T - Z.to_nat d) + 0)%Z))%R by (apply rsum_nonneg; intros i _; rewrite Z.add_0_r; apply Rle_0_sqr). lra. }
  assert (Sq' : (rsum (T - Z.to_nat d) (fun t => u (t + d)%Z * u (t + d)%Z) <= rsum T (fun t => u t * u (t + 0)%Z))%R).
  { replace T with (Z.to_nat d + (T - Z.to_nat d))%nat at 2 by lia. rewrite rsum_split. rewrite (@rsum_ext (T - Z.to_nat d) (fun i => u (i + Z.of_nat (Z.to_nat d))%Z * u (i + Z.of_nat (Z.to_nat d) + 0)%Z)%R (fun t => u (t + d)%Z * u (t + d)%Z)%R) by (intros; rewrite Z.add_0_r, Z2Nat.id by lia; reflexivity).
    assert (0 <= rsum (Z.to_nat d) (fun t => u t * u (t + 0)%Z))%R by (apply rsum_nonneg; intros i _; rewrite Z.add_0_r; apply Rle_0_sqr). lra. }
  assert (Up : (2 * rsum (T - Z.to_nat d) (fun t => u t * u (t + d)%Z) <= rsum (T - Z.to_nat d) (fun t => u t * u t) + rsum (T - Z.to_nat d) (fun t => u (t + d)%Z * u (t + d)%Z))%R).
  { rewrite <- rsum_plus, <- rsum_scal. apply rsum_le. intros i _. pose proof (Rle_0_sqr (u i - u (i + d)%Z)) as Q. unfold Rsqr in Q. lra. }
  assert (Lo : (- 2 * rsum (T - Z.to_nat d) (fun t => u t * u (t + d)%Z) <= rsum (T - Z.to_nat d) (fun t => u t * u t) + rsum (T - Z.to_nat d) (fun t => u (t + d)%Z * u (t + d)%Z))%R).
  { rewrite <- rsum_plus, <- rsum_scal. apply rsum_le. intros i _. pose proof (Rle_0_sqr (u i + u (i + d)%Z)) as Q. unfold Rsqr in Q. lra. }
  unfold Rdiv. rewrite Rabs_mult, (Rabs_pos_eq (/ INR T)) by (left; apply Rinv_0_lt_compat; exact P). apply Rmult_le_compat_r; [left; apply Rinv_0_lt_compat; exact P|]. apply Rabs_le. lra.
Qed.
(* @ex *)
Lemma temporal_autocorrelation_value_ex_lem : (2 <= 5)%nat /\ ((fun t => IZR t / 4) 0%Z < (fun t => IZR t / 4) 1%Z)%R.
Proof. split; [lia | lra]. Qed.
