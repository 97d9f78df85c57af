(** * C83: failure metrics and reductions *)
From Verif Require Import Prelude NdArr Grids_model Spec FD_model Latent_model.
From Coq Require Import Psatz.
Set Implicit Arguments.
Local Open Scope R_scope.

Lemma line_nsum n f : line_sum n f = nsum n f.
Proof. reflexivity. Qed.
Lemma ls_S n f : line_sum (S n) f = (line_sum n f + f n)%R.
Proof.
  unfold line_sum. rewrite seq_S, map_app. cbn [map Nat.add]. generalize (map f (seq 0 n)). intros l. induction l as [|x l IH]; cbn [app fold_right]; [lra | rewrite IH; lra].
Qed.
Lemma ls_nonneg n f : (forall i, (i < n)%nat -> 0 <= f i) -> 0 <= line_sum n f.
Proof. induction n as [|n IH]; intros H; [cbn; lra|]. rewrite ls_S. pose proof (H n ltac:(lia)). pose proof (IH ltac:(intros; apply H; lia)). lra. Qed.
Lemma ls_zero n f : (forall i, (i < n)%nat -> 0 <= f i) -> (line_sum n f = 0 <-> forall i, (i < n)%nat -> f i = 0).
Proof.
  induction n as [|n IH]; intros H; [split; [intros _ i Hi; lia | reflexivity]|]. rewrite ls_S. pose proof (H n ltac:(lia)) as H1. pose proof (@ls_nonneg n f ltac:(intros; apply H; lia)) as H2. destruct (IH ltac:(intros; apply H; lia)) as (A & B). split.
  - intros E i Hi. destruct (Nat.eq_dec i n) as [-> | Hn]; [lra|]. apply A; [lra | lia].
  - intros E. rewrite (E n) by lia. rewrite B by (intros; apply E; lia). lra.
Qed.
Arguments ls_nonneg {n f} _.
Arguments ls_zero {n f} _.
Lemma ls_ext n f h : (forall i, (i < n)%nat -> f i = h i) -> line_sum n f = line_sum n h.
Proof. induction n as [|n IH]; intros H; [reflexivity|]. rewrite !ls_S, IH by (intros; apply H; lia). rewrite H by lia. reflexivity. Qed.
Lemma mean_zero n f : (0 < n)%nat -> (forall i, (i < n)%nat -> 0 <= f i) -> exists m, sample_mean n f = Ok m /\ 0 <= m /\ (m = 0 <-> forall i, (i < n)%nat -> f i = 0).
Proof.
  intros Hn H. unfold sample_mean. destruct (Nat.eqb_spec n 0); [lia|]. eexists. split; [reflexivity|]. pose proof (ls_nonneg H) as H1. pose proof (lt_0_INR n Hn) as H2. split; [apply Rmult_le_pos; [exact H1 | left; apply Rinv_0_lt_compat; exact H2]|].
  rewrite <- (ls_zero H). split; [|intros ->; unfold Rdiv; lra]. intros E. apply Rmult_integral in E. destruct E as [E | E]; [exact E|]. pose proof (Rinv_neq_0_compat (INR n)). exfalso. apply H0; lra.
Qed.
Arguments mean_zero {n f} _ _.
Lemma two_zero a b : 0 <= a -> 0 <= b -> (a + b = 0 <-> a = 0 /\ b = 0).
Proof. intros. split; [intros; split; lra | intros (-> & ->); lra]. Qed.
(* @prop C83 u_x_correlation_metric (and u_t_correlation_metric) with any threshold >= 0, on any positive number of samples and lines of any length: the value is non-negative, and it is 0 exactly when, in every sample, the prediction equals the ground truth wherever the ground truth exceeds the threshold in magnitude, and stays within the threshold wherever the ground truth is below it. *)
Lemma correlation_metric_zero_iff_lem : forall (thr : R) (samples n : nat) (a gt : nat -> nat -> R), 0 <= thr -> (0 < samples)%nat ->
  exists m, u_x_correlation_metric thr samples n a gt = Ok m /\ 0 <= m /\
    (m = 0 <-> forall s i, (s < samples)%nat -> (i < n)%nat -> (thr < Rabs (gt s i) -> a s i = gt s i) /\ (Rabs (gt s i) < thr -> Rabs (a s i) <= thr)).
Proof.
  intros thr samples n a gt Ht Hs. unfold u_x_correlation_metric.
  assert (P1 : forall s i, (i < n)%nat -> 0 <= (if Rlt_dec thr (Rabs (gt s i)) then Rabs (a s i - gt s i) else 0)) by (intros s i _; destruct (Rlt_dec _ _); [apply Rabs_pos | lra]).
  assert (P2 : forall s i, (i < n)%nat -> 0 <= (if Rlt_dec thr (Rabs (a s i)) then if Rlt_dec (Rabs (gt s i)) thr then Rabs (a s i) else 0 else 0)) by (intros s i _; destruct (Rlt_dec _ _); [destruct (Rlt_dec _ _); [apply Rabs_pos | lra] | lra]).
  assert (PS : forall s, (s < samples)%nat -> 0 <= correlation_line_metric thr n (a s) (gt s)) by (intros s _; unfold correlation_line_metric; apply Rplus_le_le_0_compat; apply ls_nonneg; [apply P1 | apply P2]).
  destruct (mean_zero Hs PS) as (m & Em & Hm & Z). exists m. split; [exact Em|]. split; [exact Hm|]. rewrite Z. unfold correlation_line_metric. split.
  - intros H s i Hsi Hi. specialize (H s Hsi). apply two_zero in H; [| apply ls_nonneg, P1 | apply ls_nonneg, P2]. destruct H as (A & B). rewrite (ls_zero (P1 s)) in A. rewrite (ls_zero (P2 s)) in B. specialize (A i Hi). specialize (B i Hi). cbv beta in A, B. split.
    + intros Hg. destruct (Rlt_dec thr (Rabs (gt s i))) as [_ | N]; [|contradiction]. destruct (Req_dec (a s i - gt s i) 0) as [E | E]; [lra | exfalso; exact (Rabs_no_R0 _ E A)].
    + intros Hg. destruct (Rlt_dec thr (Rabs (a s i))) as [L | N]; [|lra]. destruct (Rlt_dec (Rabs (gt s i)) thr) as [_ | N]; [lra | contradiction].
  - intros H s Hsi. apply two_zero; [apply ls_nonneg, P1 | apply ls_nonneg, P2 |]. split; [apply (ls_zero (P1 s)) | apply (ls_zero (P2 s))]; intros i Hi; destruct (H s i Hsi Hi) as (A & B).
    + destruct (Rlt_dec thr (Rabs (gt s i))) as [L | N]; [|reflexivity]. rewrite (A L). replace (gt s i - gt s i) with 0 by lra. apply Rabs_R0.
    + destruct (Rlt_dec thr (Rabs (a s i))) as [L | N]; [|reflexivity]. destruct (Rlt_dec (Rabs (gt s i)) thr) as [L2 | N]; [|reflexivity]. specialize (B L2). lra.
Qed.
(* @ex *)
Lemma correlation_metric_zero_iff_ex_lem : 0 <= 1 / 2 /\ (0 < 2)%nat.
Proof. split; [lra | lia]. Qed.
Lemma ln_eq a b : 0 < a -> 0 < b -> ln a = ln b -> a = b.
Proof. intros Ha Hb E. apply ln_inv; assumption. Qed.
(* @prop C83 energy_spectrum_metric with any threshold, on spectra with positive values: the value is non-negative, and it is 0 exactly when, in every sample, the spectrum equals the ground truth wherever the ground truth exceeds the threshold, and wherever the ground truth is below it the spectrum is at most the threshold or exactly 1. *)
Lemma energy_spectrum_metric_zero_iff_lem : forall (thr : R) (samples n : nat) (a gt : nat -> nat -> R), (0 < samples)%nat ->
  (forall s i, (s < samples)%nat -> (i < n)%nat -> 0 < a s i /\ 0 < gt s i) ->
  exists m, energy_spectrum_metric thr samples n a gt = Ok m /\ 0 <= m /\
    (m = 0 <-> forall s i, (s < samples)%nat -> (i < n)%nat -> (thr < gt s i -> a s i = gt s i) /\ (gt s i < thr -> a s i <= thr \/ a s i = 1)).
Proof.
  intros thr samples n a gt Hs Hp. unfold energy_spectrum_metric.
  assert (P1 : forall s i, (i < n)%nat -> 0 <= (if Rlt_dec thr (gt s i) then Rabs (ln (a s i) - ln (gt s i)) else 0)) by (intros s i _; destruct (Rlt_dec _ _); [apply Rabs_pos | lra]).
  assert (P2 : forall s i, (i < n)%nat -> 0 <= (if Rlt_dec thr (a s i) then if Rlt_dec (gt s i) thr then Rabs (ln (a s i)) else 0 else 0)) by (intros s i _; destruct (Rlt_dec _ _); [destruct (Rlt_dec _ _); [apply Rabs_pos | lra] | lra]).
  assert (PS : forall s, (s < samples)%nat -> 0 <= spectrum_line_metric thr n (a s) (gt s)) by (intros s _; unfold spectrum_line_metric; apply Rplus_le_le_0_compat; apply ls_nonneg; [apply P1 | apply P2]).
  destruct (mean_zero Hs PS) as (m & Em & Hm & Z). exists m. split; [exact Em|]. split; [exact Hm|]. rewrite Z. unfold spectrum_line_metric. split.
  - intros H s i Hsi Hi. specialize (H s Hsi). destruct (Hp s i Hsi Hi) as (Ha & Hg0). apply two_zero in H; [| apply ls_nonneg, P1 | apply ls_nonneg, P2]. destruct H as (A & B). rewrite (ls_zero (P1 s)) in A. rewrite (ls_zero (P2 s)) in B. specialize (A i Hi). specialize (B i Hi). cbv beta in A, B. split.
    + intros Hg. destruct (Rlt_dec thr (gt s i)) as [_ | N]; [|contradiction]. apply ln_eq; [assumption..|]. destruct (Req_dec (ln (a s i) - ln (gt s i)) 0) as [E | E]; [lra | exfalso; exact (Rabs_no_R0 _ E A)].
    + intros Hg. destruct (Rlt_dec thr (a s i)) as [L | N]; [|left; lra]. destruct (Rlt_dec (gt s i) thr) as [_ | N]; [|contradiction]. right. apply ln_eq; [exact Ha | lra|]. rewrite ln_1. destruct (Req_dec (ln (a s i)) 0) as [E | E]; [exact E | exfalso; exact (Rabs_no_R0 _ E B)].
  - intros H s Hsi. apply two_zero; [apply ls_nonneg, P1 | apply ls_nonneg, P2 |]. split; [apply (ls_zero (P1 s)) | apply (ls_zero (P2 s))]; intros i Hi; destruct (H s i Hsi Hi) as (A & B).
    + destruct (Rlt_dec thr (gt s i)) as [L | N]; [|reflexivity]. rewrite (A L). replace (ln (gt s i) - ln (gt s i)) with 0 by lra. apply Rabs_R0.
    + destruct (Rlt_dec thr (a s i)) as [L | N]; [|reflexivity]. destruct (Rlt_dec (gt s i) thr) as [L2 | N]; [|reflexivity]. destruct (B L2) as [B' | ->]; [lra | rewrite ln_1; apply Rabs_R0].
Qed.
(* @ex *)
Lemma energy_spectrum_metric_zero_iff_ex_lem : (0 < 2)%nat /\ (forall s i, (s < 2)%nat -> (i < 3)%nat -> 0 < (fun s i => INR (S s + i)) s i /\ 0 < (fun s i => 1 / 1000) s i).
Proof. split; [lia|]. intros s i _ _. split; [apply lt_0_INR; lia | lra]. Qed.
(* @prop C83 energy_spectrum_metric does not catch every spurious mode (refuted): with its default threshold 0.01 the metric of a spectrum that has energy 1 in a mode where the ground truth has 0.001, a hundred times the threshold, is exactly 0, because the penalty is the magnitude of the logarithm of the energy. *)
Lemma energy_spectrum_metric_catches_modes_refuted_lem : ~ (forall (samples n : nat) (a gt : nat -> nat -> R), (0 < samples)%nat -> (forall s i, (s < samples)%nat -> (i < n)%nat -> 0 < a s i /\ 0 < gt s i) ->
  energy_spectrum_metric (1 / 100) samples n a gt = Ok 0 -> forall s i, (s < samples)%nat -> (i < n)%nat -> gt s i < 1 / 100 -> a s i <= 1 / 100).
Proof.
  intros H. destruct (@energy_spectrum_metric_zero_iff_lem (1 / 100) 1 1 (fun _ _ => 1) (fun _ _ => 1 / 1000) ltac:(lia) ltac:(intros; lra)) as (m & Em & _ & Z).
  assert (m = 0) as -> by (apply Z; intros; split; [lra | right; lra]). specialize (H 1%nat 1%nat (fun _ _ => 1) (fun _ _ => 1 / 1000) ltac:(lia) ltac:(intros; lra) Em 0%nat 0%nat ltac:(lia) ltac:(lia) ltac:(lra)). cbv beta in H. lra.
Qed.
Lemma mean_ok l : l <> [] -> mean_reduction l = Ok (fold_right Rplus 0 l / INR (length l)).
Proof. destruct l; [congruence | reflexivity]. Qed.
Lemma mapM_ok_map {T U} (f : T -> result U) (h : T -> U) l : (forall x, In x l -> f x = Ok (h x)) -> mapM f l = Ok (map h l).
Proof. induction l as [|x l IH]; intros H; [reflexivity|]. cbn [mapM map]. rewrite (H x) by (left; reflexivity). cbn [bind]. rewrite IH by (intros; apply H; right; assumption). reflexivity. Qed.
Lemma fr_app (l1 l2 : list R) : fold_right Rplus 0 (l1 ++ l2) = fold_right Rplus 0 l1 + fold_right Rplus 0 l2.
Proof. induction l1 as [|x l1 IH]; cbn [app fold_right]; [lra | rewrite IH; lra]. Qed.
(* @prop C83 Averaging over devices: split any batch into any positive number of shards of one positive size; for any metric of single elements, the mean over the devices of the mean over each shard (distributed_reduce of local_reduce) equals the mean over the whole batch (local_reduce). *)
Lemma distributed_mean_is_global_mean_lem : forall (B : Type) (metric : B -> result R) (value : B -> R) (shards : list (list B)) (size : nat),
  shards <> [] -> (0 < size)%nat -> (forall s, In s shards -> length s = size) -> (forall s x, In s shards -> In x s -> metric x = Ok (value x)) ->
  exists m, distributed_reduce (local_reduce metric mean_reduction) mean_reduction shards = Ok m /\ local_reduce metric mean_reduction (concat shards) = Ok m /\
    m = fold_right Rplus 0 (map value (concat shards)) / INR (length shards * size).
Proof.
  intros B metric value shards size Hne Hs Hl Hm. exists (fold_right Rplus 0 (map value (concat shards)) / INR (length shards * size)).
  assert (Lc : length (concat shards) = (length shards * size)%nat).
  { clear Hne Hm. induction shards as [|s ss IH]; [reflexivity|]. cbn [concat length]. rewrite app_length, (Hl s) by (left; reflexivity). rewrite IH by (intros; apply Hl; right; assumption). lia. }
  assert (Hn : (0 < length shards)%nat) by (destruct shards; [congruence | cbn; lia]). pose proof (lt_0_INR _ Hn) as P1. pose proof (lt_0_INR _ Hs) as P2.
  split; [|split; [|reflexivity]].
  - unfold distributed_reduce. rewrite (@mapM_ok_map _ _ _ (fun s => fold_right Rplus 0 (map value s) / INR size)).
    + cbn [bind]. rewrite mean_ok by (destruct shards; [congruence | discriminate]). rewrite map_length, mult_INR. f_equal. assert (E : fold_right Rplus 0 (map (fun s => fold_right Rplus 0 (map value s) / INR size) shards) = fold_right Rplus 0 (map value (concat shards)) / INR size).
      { clear. induction shards as [|s ss IH]; cbn [map fold_right concat]; [unfold Rdiv; lra|]. rewrite IH, map_app, fr_app. unfold Rdiv. lra. }
      rewrite E. field. split; lra.
    + intros s Hin. unfold local_reduce. rewrite (@mapM_ok_map _ _ _ value) by (intros x Hx; apply (Hm s); assumption). cbn [bind]. rewrite mean_ok; [rewrite map_length, (Hl s Hin); reflexivity|]. pose proof (Hl s Hin). destruct s; [cbn in H; lia | discriminate].
  - unfold local_reduce. rewrite (@mapM_ok_map _ _ _ value). + cbn [bind]. rewrite mean_ok; [rewrite map_length, Lc; reflexivity|]. intros E. apply map_eq_nil in E. rewrite E in Lc. cbn in Lc. nia.
    + intros x Hx. apply in_concat in Hx. destruct Hx as (s & H1 & H2). exact (Hm s x H1 H2).
Qed.
(* @ex *)
Lemma distributed_mean_is_global_mean_ex_lem : [[1; 2]; [3; 5]; [8; 13]] <> [] /\ (0 < 2)%nat /\ (forall s, In s [[1; 2]; [3; 5]; [8; 13]] -> length s = 2%nat) /\ (forall s x, In s [[1; 2]; [3; 5]; [8; 13]] -> In x s -> (fun x => Ok (x * x)) x = Ok ((fun x => x * x) x)).
Proof. split; [discriminate|]. split; [lia|]. split; [intros s [<- | [<- | [<- | []]]]; reflexivity | reflexivity]. Qed.
(* @prop C83 Averaging over devices with shards of different sizes is not averaging over the batch (refuted): with shards of 1 and 2 elements the two means differ. *)
Lemma distributed_mean_uneven_refuted_lem : ~ (forall (metric : R -> result R) (shards : list (list R)), (forall s, In s shards -> s <> []) ->
  distributed_reduce (local_reduce metric mean_reduction) mean_reduction shards = local_reduce metric mean_reduction (concat shards)).
Proof.
  intros H. specialize (H (fun x => Ok x) [[1]; [0; 0]] ltac:(intros s [<- | [<- | []]]; discriminate)). unfold distributed_reduce, local_reduce in H. cbn [mapM bind mean_reduction concat app fold_right length INR] in H. injection H as H. lra.
Qed.
