(** * A discrete Poincare inequality: nonzero eigenvalues of a Laplacian are bounded away from zero *)
From Verif Require Import Prelude NdArr Grids_model Spec SpecLin LinAlg FDProofs FastDiag_model FastDiagProofs LaplacianProofs FastDiagImplProps LapSign.
Set Implicit Arguments.
Local Open Scope Z_scope.

(** Squared steps of a sequence. *)
Definition steps2 (n : nat) (u : Z -> R) : R := rsum (n - 1) (fun i => (u (i + 1)%Z - u i) * (u (i + 1)%Z - u i))%R.
Lemma steps2_nonneg n u : (0 <= steps2 n u)%R.
Proof. apply rsum_nonneg. intros i _. apply Rle_0_sqr. Qed.
Lemma cs_step (k : nat) (a d s : R) : (0 <= s -> a * a <= INR k * s -> (a + d) * (a + d) <= INR (S k) * (s + d * d))%R.
Proof.
  intros Hs Ha. rewrite S_INR. pose proof (pos_INR k) as Hk. destruct k as [|k].
  - cbn in *. assert (a = 0)%R by nra. subst. nra.
  - assert (HK : (0 < INR (S k))%R) by (apply lt_0_INR; lia). set (K := INR (S k)) in *.
    (* 2 a d <= s + K d^2 *)
    assert (2 * a * d <= s + K * (d * d))%R.
    { assert (H : (0 <= (a - K * d) * (a - K * d))%R) by apply Rle_0_sqr.
      assert (K * (2 * a * d) <= K * (s + K * (d * d)))%R by nra. nra. }
    nra.
Qed.
Lemma steps2_S n u : (0 < n)%nat -> steps2 (S n) u = (steps2 n u + (u (Z.of_nat n) - u (Z.of_nat n - 1)%Z) * (u (Z.of_nat n) - u (Z.of_nat n - 1)%Z))%R.
Proof.
  intros Hn. destruct n as [|m]; [lia|]. unfold steps2. replace (S (S m) - 1)%nat with (S m) by lia. replace (S m - 1)%nat with m by lia.
  cbn [rsum]. replace (Z.of_nat (S m)) with (Z.of_nat m + 1) by lia. replace (Z.of_nat m + 1 - 1) with (Z.of_nat m) by lia. reflexivity.
Qed.
(** (u_j - u_i)^2 <= (j - i) * steps, for i <= j < n. *)
Lemma steps2_diff n u : forall k i, 0 <= i -> i + Z.of_nat k < Z.of_nat n -> 
  ((u (i + Z.of_nat k)%Z - u i) * (u (i + Z.of_nat k)%Z - u i) <= INR k * steps2 n u)%R.
Proof.
  assert (Hpart : forall k i, 0 <= i -> ((u (i + Z.of_nat k)%Z - u i) * (u (i + Z.of_nat k)%Z - u i) <= INR k * rsum k (fun j => (u (i + j + 1)%Z - u (i + j)%Z) * (u (i + j + 1)%Z - u (i + j)%Z)))%R).
  { induction k as [|k IH]; intros i Hi.
    - cbn [rsum INR Z.of_nat]. rewrite Z.add_0_r. cbn. lra.
    - cbn [rsum]. replace (u (i + Z.of_nat (S k))%Z - u i)%R with ((u (i + Z.of_nat k)%Z - u i) + (u (i + Z.of_nat k + 1)%Z - u (i + Z.of_nat k)%Z))%R.
      2:{ replace (i + Z.of_nat (S k)) with (i + Z.of_nat k + 1) by lia. ring. }
      apply cs_step; [apply rsum_nonneg; intros; apply Rle_0_sqr | apply IH; exact Hi]. }
  intros k i Hi Hk. eapply Rle_trans; [apply Hpart; exact Hi|]. apply Rmult_le_compat_l; [apply pos_INR|].
  unfold steps2. replace (n - 1)%nat with (Z.to_nat i + (n - 1 - Z.to_nat i))%nat by lia. rewrite rsum_split.
  replace (n - 1 - Z.to_nat i)%nat with (k + (n - 1 - Z.to_nat i - k))%nat by lia. rewrite (rsum_split k).
  assert (0 <= rsum (Z.to_nat i) (fun i0 => (u (i0 + 1)%Z - u i0) * (u (i0 + 1)%Z - u i0)))%R by (apply rsum_nonneg; intros; apply Rle_0_sqr).
  match goal with |- (_ <= _ + (?A + ?B))%R => assert (0 <= B)%R by (apply rsum_nonneg; intros; apply Rle_0_sqr); assert (HA : rsum k (fun j => (u (i + j + 1)%Z - u (i + j)%Z) * (u (i + j + 1)%Z - u (i + j)%Z))%R = A) end.
  { apply rsum_ext. intros j Hj. cbv beta. rewrite ?Z2Nat.id by lia. repeat (f_equal; try lia). }
  lra.
Qed.
Lemma pair_sum n u : rsum n (fun i => rsum n (fun j => (u i - u j) * (u i - u j)))%R = (2 * (INR n * rsum n (fun i => u i * u i) - rsum n u * rsum n u))%R.
Proof.
  transitivity (rsum n (fun i => INR n * (u i * u i) + rsum n (fun j => u j * u j) - 2 * (u i * rsum n u))%R).
  { apply rsum_ext. intros i _. rewrite <- (rsum_const n (u i * u i)%R). rewrite <- rsum_scal. rewrite <- rsum_scal, <- rsum_plus, <- rsum_minus. apply rsum_ext. intros; ring. }
  rewrite rsum_minus, rsum_plus, !rsum_scal, rsum_const, rsum_scal_r. ring.
Qed.
Lemma poincare1 n u : (0 < n)%nat -> (rsum n (fun i => u i * u i) - rsum n u * rsum n u / INR n <= INR n * INR n / 2 * steps2 n u)%R.
Proof.
  intros Hn. assert (HN : (0 < INR n)%R) by (apply lt_0_INR; lia).
  assert (H : (rsum n (fun i => rsum n (fun j => (u i - u j) * (u i - u j))) <= INR n * (INR n * (INR n * steps2 n u)))%R).
  { rewrite <- (rsum_const n (INR n * (INR n * steps2 n u))%R). apply rsum_le. intros i Hi. rewrite <- (rsum_const n (INR n * steps2 n u)%R). apply rsum_le. intros j Hj.
    pose proof (steps2_nonneg n u) as Hs.
    assert (Hkn : forall k, (k <= n)%nat -> (INR k * steps2 n u <= INR n * steps2 n u)%R) by (intros k Hk; apply Rmult_le_compat_r; [exact Hs | apply le_INR; exact Hk]).
    destruct (Z.le_ge_cases i j) as [Hij|Hij].
    - pose proof (@steps2_diff n u (Z.to_nat (j - i)) i ltac:(lia) ltac:(lia)) as H. replace (i + Z.of_nat (Z.to_nat (j - i))) with j in H by lia.
      specialize (Hkn (Z.to_nat (j - i)) ltac:(lia)). nra.
    - pose proof (@steps2_diff n u (Z.to_nat (i - j)) j ltac:(lia) ltac:(lia)) as H. replace (j + Z.of_nat (Z.to_nat (i - j))) with i in H by lia.
      specialize (Hkn (Z.to_nat (i - j)) ltac:(lia)). lra. }
  rewrite pair_sum in H. set (A := rsum n (fun i => u i * u i)%R) in *. set (S0 := rsum n u) in *. set (T := steps2 n u) in *.
  apply Rmult_le_reg_l with (r := INR n); [exact HN|]. replace (INR n * (A - S0 * S0 / INR n))%R with (INR n * A - S0 * S0)%R by (field; lra). lra.
Qed.
(** Cauchy-Schwarz for sums over an array. *)
Lemma asum_cs s f : (asum s f * asum s f <= INR (asize s) * asum s (fun ix => f ix * f ix))%R.
Proof.
  destruct (Nat.eq_dec (asize s) 0) as [E|E].
  - assert (Hz : asum s f = 0%R).
    { rewrite (@asum_ext s f (fun _ => 0%R)); [apply asum_0|]. intros ix Hix. exfalso. revert ix Hix E. induction s as [|n s IH]; intros [|i ix]; cbn; try tauto; [lia|].
      intros (Hi & Hx) Hm. apply Nat.mul_eq_0 in Hm. destruct Hm as [-> | Hm]; [lia | eapply IH; eauto]. }
    rewrite Hz, E. cbn. lra.
  - set (N := INR (asize s)). assert (HN : (0 < N)%R) by (apply lt_0_INR; lia). set (m := (asum s f / N)%R).
    assert (H : (0 <= asum s (fun ix => (f ix - m) * (f ix - m)))%R) by (apply asum_nonneg; intros; apply Rle_0_sqr).
    assert (Em : asum s (fun ix => (f ix - m) * (f ix - m))%R = (asum s (fun ix => f ix * f ix) - 2 * m * asum s f + N * (m * m))%R).
    { transitivity (asum s (fun ix => f ix * f ix - (2 * m) * f ix + m * m)%R); [apply asum_ext; intros; ring|]. rewrite asum_plus, asum_minus, asum_scal, asum_const. reflexivity. }
    rewrite Em in H. unfold m in H. apply Rmult_le_compat_l with (r := N) in H; [|lra]. rewrite Rmult_0_r in H.
    replace (N * (asum s (fun ix => f ix * f ix) - 2 * (asum s f / N) * asum s f + N * (asum s f / N * (asum s f / N))))%R with (N * asum s (fun ix => f ix * f ix) - asum s f * asum s f)%R in H by (field; lra). lra.
Qed.
(** Weighted sum of squared steps along every axis. *)
Fixpoint energy (c : list R) (s : list nat) (w : list Z -> R) : R :=
  match c, s with
  | k :: c', n :: s' => (k * asum s' (fun ix => steps2 n (fun i => w (i :: ix))) + rsum n (fun i => energy c' s' (fun ix => w (i :: ix))))%R
  | _, _ => 0%R
  end.
Definition variance (s : list nat) (w : list Z -> R) : R := (asum s (fun ix => w ix * w ix) - asum s w * asum s w / INR (asize s))%R.
Lemma poincare s : allpos s -> forall w, (variance s w <= energy (map (fun n => INR n * INR n / 2) s) s w)%R.
Proof.
  induction 1 as [|n s Hn Hp IH]; intros w.
  - unfold variance. cbn. lra.
  - pose proof (asize_pos Hp) as HN'. assert (HN : (0 < INR n)%R) by (apply lt_0_INR; lia). cbn [map energy].
    set (S0 := fun i => asum s (fun ix => w (i :: ix))).
    assert (E : variance (n :: s) w = (rsum n (fun i => variance s (fun ix => w (i :: ix))) + / INR (asize s) * (rsum n (fun i => S0 i * S0 i) - rsum n S0 * rsum n S0 / INR n))%R).
    { unfold variance. cbn [asum asize fold_right]. rewrite mult_INR. fold (asize s). rewrite rsum_minus. fold S0.
      rewrite (@rsum_ext n (fun i => asum s (fun ix => w (i :: ix)) * asum s (fun ix => w (i :: ix)) / INR (asize s))%R (fun i => / INR (asize s) * (S0 i * S0 i))%R) by (intros; unfold S0; field; lra).
      rewrite rsum_scal. change (fun i => asum s (fun ix => w (i :: ix))) with S0. field. lra. }
    rewrite E.
    assert (H1 : (rsum n (fun i => variance s (fun ix => w (i :: ix))) <= rsum n (fun i => energy (map (fun n => INR n * INR n / 2) s) s (fun ix => w (i :: ix))))%R) by (apply rsum_le; intros i _; apply IH).
    assert (H2 : (rsum n (fun i => S0 i * S0 i) - rsum n S0 * rsum n S0 / INR n <= INR n * INR n / 2 * steps2 n S0)%R) by (apply poincare1; exact Hn).
    assert (H3 : (steps2 n S0 <= INR (asize s) * asum s (fun ix => steps2 n (fun i => w (i :: ix))))%R).
    { unfold steps2. rewrite asum_rsum. rewrite <- rsum_scal. apply rsum_le. intros i _. unfold S0. rewrite <- asum_minus. apply (@asum_cs s (fun ix => w ((i + 1)%Z :: ix) - w (i :: ix))%R). }
    assert (H4 : (/ INR (asize s) * (rsum n (fun i => S0 i * S0 i) - rsum n S0 * rsum n S0 / INR n) <= INR n * INR n / 2 * asum s (fun ix => steps2 n (fun i => w (i :: ix))))%R).
    { apply Rmult_le_reg_l with (r := INR (asize s)); [exact HN'|]. rewrite <- Rmult_assoc, Rinv_r, Rmult_1_l by lra.
      eapply Rle_trans; [exact H2|]. assert (0 <= INR n * INR n / 2)%R by nra. nra. }
    lra.
Qed.

Lemma rsum_nsum n d (f : Z -> nat -> R) : rsum n (fun i => nsum d (f i)) = nsum d (fun a => rsum n (fun i => f i a)).
Proof. induction n as [|n IH]; cbn [rsum]; [rewrite (@nsum_ext d _ (fun _ => 0 * 0)%R), nsum_scal by (intros; ring); ring|]. rewrite IH, <- nsum_plus. reflexivity. Qed.
(** The same, axis by axis. *)
Definition axis_steps (s : list nat) (w : list Z -> R) (a : nat) : R := asum (upd a 1%nat s) (fun ix => steps2 (nth a s 0%nat) (fun i => w (upd a i ix))).
Lemma axis_steps_nonneg s w a : (0 <= axis_steps s w a)%R.
Proof. apply asum_nonneg. intros. apply steps2_nonneg. Qed.
Lemma energy_nsum s : forall c w, length c = length s -> energy c s w = nsum (length s) (fun a => nth a c 0 * axis_steps s w a)%R.
Proof.
  induction s as [|n s IH]; intros [|k c] w HL; try discriminate; [reflexivity|].
  cbn [length]. rewrite nsum_first. cbn [energy nth]. f_equal.
  - unfold axis_steps. cbn [upd asum rsum nth]. rewrite Rplus_0_l. reflexivity.
  - cbn in HL. rewrite (@rsum_ext n _ (fun i => nsum (length s) (fun a => nth a c 0 * axis_steps s (fun ix => w (i :: ix)) a)%R)) by (intros i _; apply IH; lia).
    rewrite rsum_nsum. apply nsum_ext. intros a _. rewrite rsum_scal. f_equal.
Qed.
Lemma linq_steps ops w a ix h : Forall dissip ops -> (a < length ops)%nat -> coupled h (nth a ops (afull [] 0%R)) -> h <> 0%R ->
  (/ h ^ 2 * steps2 (nth a (sizes ops) 0%nat) (fun i => w (upd a i ix)) <= - linq ops w a ix)%R.
Proof.
  intros Hd Ha Hc Hh. rewrite Forall_forall in Hd. destruct (Hd (nth a ops (afull [] 0%R)) (nth_In _ _ Ha)) as (n & Hn & S & Hs & Ho & Hr & _).
  unfold linq. rewrite sizes_nth by exact Ha. unfold coupled in Hc. rewrite S in *. cbn [nth] in *. set (A := nth a ops (afull [] 0%R)) in *.
  set (u := fun i => w (upd a i ix)). change (fun i => w (upd a i ix) * rsum n (fun j => get A [i; j] * w (upd a j ix)))%R with (fun i => u i * rsum n (fun j => get A [i; j] * u j))%R.
  rewrite (@quad_form n (fun i j => get A [i; j]) u Hs).
  assert (H1 : (rsum n (fun i => rsum n (fun j => get A [i; j]) * (u i * u i)) <= 0)%R).
  { rewrite <- (rsum_0 n). apply rsum_le. intros i Hi. specialize (Hr i Hi). pose proof (Rle_0_sqr (u i)) as Hq. unfold Rsqr in Hq. nra. }
  set (T := fun i j => (get A [i; j] * ((u i - u j) * (u i - u j)))%R).
  assert (Hnn : forall i j, 0 <= i < Z.of_nat n -> 0 <= j < Z.of_nat n -> (0 <= T i j)%R).
  { intros i j Hi Hj. pose proof (Rle_0_sqr (u i - u j)) as Hq. unfold Rsqr in Hq. unfold T. destruct (Z.eq_dec i j) as [->|N].
    - replace (u j - u j)%R with 0%R by ring. lra.
    - apply Rmult_le_pos; auto. }
  set (D := fun i => ((u (i + 1)%Z - u i) * (u (i + 1)%Z - u i))%R).
  (* both neighbours *)
  assert (Hup : (rsum (n - 1) (fun i => / h ^ 2 * D i) <= rsum n (fun i => rsum n (fun j => if i <? j then T i j else 0)))%R).
  { replace n with ((n - 1) + 1)%nat at 2 by lia. rewrite rsum_split.
    assert (0 <= rsum 1 (fun i => rsum n (fun j => if (i + Z.of_nat (n - 1) <? j)%Z then T (i + Z.of_nat (n - 1))%Z j else 0)))%R.
    { apply rsum_nonneg. intros i Hi. apply rsum_nonneg. intros j Hj. destruct (_ <? _); [apply Hnn; lia | lra]. }
    assert (rsum (n - 1) (fun i => / h ^ 2 * D i) <= rsum (n - 1) (fun i => rsum n (fun j => if i <? j then T i j else 0)))%R; [|lra].
    apply rsum_le. intros i Hi. eapply Rle_trans; [|apply (@rsum_term n (fun j => if i <? j then T i j else 0)%R (i + 1)); [|lia]].
    - cbv beta. replace (i <? i + 1) with true by (symmetry; apply Z.ltb_lt; lia). unfold D, T. pose proof (Rle_0_sqr (u i - u (i + 1)%Z)) as Hq. unfold Rsqr in Hq.
      specialize (Hc i ltac:(lia) ltac:(lia)). nra.
    - intros j Hj. destruct (i <? j); [apply Hnn; lia | lra]. }
  assert (Hsym : rsum n (fun i => rsum n (fun j => if j <? i then T i j else 0))%R = rsum n (fun i => rsum n (fun j => if i <? j then T i j else 0))%R).
  { rewrite rsum_swap. apply rsum_ext. intros i Hi. apply rsum_ext. intros j Hj. destruct (i <? j); [|reflexivity]. unfold T. rewrite (Hs j i) by auto. ring. }
  assert (Hall : (rsum n (fun i => rsum n (fun j => if i <? j then T i j else 0)) + rsum n (fun i => rsum n (fun j => if j <? i then T i j else 0)) <= rsum n (fun i => rsum n (T i)))%R).
  { rewrite <- rsum_plus. apply rsum_le. intros i Hi. rewrite <- rsum_plus. apply rsum_le. intros j Hj. specialize (Hnn i j Hi Hj).
    destruct (Z.ltb_spec i j); destruct (Z.ltb_spec j i); try lia; lra. }
  rewrite rsum_scal in Hup. unfold steps2. change (fun i => (u (i + 1)%Z - u i) * (u (i + 1)%Z - u i))%R with D.
  change (fun i => rsum n (fun j => get A [i; j] * ((u i - u j) * (u i - u j))))%R with (fun i => rsum n (T i)).
  lra.
Qed.
(** Nonzero eigenvalues of an operator that annihilates constants exceed any cutoff with [cutoff * L_a^2 < 2] for every axis length [L_a]. *)
Lemma strict_margin (d : nat) (f : nat -> R) c : (forall a, (a < d)%nat -> (0 < f a /\ c * f a < 2)%R) -> exists k, (c < k)%R /\ forall a, (a < d)%nat -> (k * f a <= 2)%R.
Proof.
  induction d as [|d IH]; intros H.
  - exists (c + 1)%R. split; [lra | intros; lia].
  - destruct IH as (k & Hk & Hf); [intros; apply H; lia|]. destruct (H d ltac:(lia)) as (Hp & Hd).
    exists (Rmin k (2 / f d)). assert (c < 2 / f d)%R by (apply Rmult_lt_reg_r with (r := f d); [exact Hp|]; unfold Rdiv; rewrite Rmult_assoc, Rinv_l by lra; lra).
    split; [apply Rmin_glb_lt; assumption|]. intros a Ha. destruct (Nat.eq_dec a d) as [->|N].
    + apply Rle_trans with (2 / f d * f d)%R; [apply Rmult_le_compat_r; [lra | apply Rmin_r]|]. right. field. lra.
    + destruct (H a Ha) as (Hpa & _). apply Rle_trans with (k * f a)%R; [apply Rmult_le_compat_r; [lra | apply Rmin_l]|]. apply Hf. lia.
Qed.
Lemma spectral_gap ops h cutoff x : Forall dissip ops -> (forall a, (a < length ops)%nat -> coupled (h a) (nth a ops (afull [] 0%R)) /\ h a <> 0%R) ->
  (forall ix, inb (sizes ops) ix -> separable ops (fun _ => 1%R) ix = 0%R) ->
  (0 <= cutoff)%R -> (forall a, (a < length ops)%nat -> (cutoff * (INR (nth a (sizes ops) 0%nat) * h a) ^ 2 < 2)%R) ->
  eigenvalue_of ops x -> (x = 0 \/ cutoff < Rabs x)%R.
Proof.
  intros Hd Hc H1 H0 Hcut Hx. pose proof (eig_nonpos Hd Hx) as Hneg. destruct (Req_EM_T x 0) as [|Hx0]; [left; assumption|right].
  pose proof (dissip_sizes Hd) as Hp. pose proof (asize_pos Hp) as HN.
  assert (Hsl : length (sizes ops) = length ops) by (unfold sizes; apply map_length).
  destruct Hx as (w & (ix & Hi & Hw) & He).
  assert (Hsym : Forall symmetric ops) by (eapply Forall_impl; [|exact Hd]; intros A; apply dissip_symmetric).
  assert (Hsep : forall v jx, inb (sizes ops) jx -> separable ops v jx = sep_op ops v jx) by (intros v jx Hj; apply separable_sep; rewrite (inb_length _ _ Hj); exact Hsl).
  (* sum of w vanishes *)
  assert (Hsum : asum (sizes ops) w = 0%R).
  { pose proof (sep_adjoint Hsym w (fun _ => 1%R)) as E. unfold inner in E.
    rewrite (@asum_ext _ (fun ix => sep_op ops w ix * 1)%R (fun ix => x * w ix)%R) in E by (intros jx Hj; rewrite <- Hsep, He by exact Hj; ring).
    rewrite (@asum_ext _ (fun ix => w ix * sep_op ops (fun _ => 1) ix)%R (fun _ => 0%R)) in E by (intros jx Hj; rewrite <- Hsep, H1 by exact Hj; ring).
    rewrite asum_scal, asum_0 in E. apply Rmult_integral in E. destruct E; [contradiction | assumption]. }
  set (Q2 := asum (sizes ops) (fun jx => w jx * w jx)%R).
  assert (HQ : (0 < Q2)%R).
  { assert (Hq : forall jx, inb (sizes ops) jx -> (0 <= w jx * w jx)%R) by (intros jx _; apply Rle_0_sqr).
    assert (0 <= Q2)%R by (apply asum_nonneg; exact Hq). assert (Q2 <> 0)%R; [|lra]. intros E0. apply Hw.
    assert (w ix * w ix = 0)%R by (apply (@asum_nonneg_0 (sizes ops) (fun jx => w jx * w jx)%R Hq E0 ix Hi)). nra. }
  assert (Hpoin : (Q2 <= nsum (length ops) (fun a => INR (nth a (sizes ops) 0%nat) * INR (nth a (sizes ops) 0%nat) / 2 * axis_steps (sizes ops) w a))%R).
  { pose proof (poincare Hp w) as H. unfold variance in H. rewrite Hsum in H. rewrite energy_nsum in H by (rewrite map_length; reflexivity). rewrite Hsl in H.
    fold Q2 in H. replace (Q2 - 0 * 0 / INR (asize (sizes ops)))%R with Q2 in H by (field; lra).
    rewrite <- (@nsum_ext (length ops) (fun a => nth a (map (fun n => INR n * INR n / 2) (sizes ops)) 0 * axis_steps (sizes ops) w a)%R).
    - exact H.
    - intros a Ha. rewrite (@nth_map' _ _ (fun n => (INR n * INR n / 2)%R) (sizes ops) a 0%nat 0%R) by lia. reflexivity. }
  assert (Hin : inner (sizes ops) w (separable ops w) = (x * Q2)%R).
  { unfold inner, Q2. rewrite <- asum_scal. apply asum_ext. intros jx Hj. rewrite He by exact Hj. ring. }
  assert (Hlow : (nsum (length ops) (fun a => / h a ^ 2 * axis_steps (sizes ops) w a) <= - (x * Q2))%R).
  { rewrite <- Hin, inner_sep, <- nsum_opp. apply nsum_le. intros a Ha. unfold axis_steps. rewrite <- asum_scal, <- asum_opp. apply asum_le. intros jx _.
    destruct (Hc a Ha). apply linq_steps; auto. }
  assert (Hh2 : forall a, (a < length ops)%nat -> (0 < h a ^ 2)%R).
  { intros a Ha. destruct (Hc a Ha) as (_ & Hh). pose proof (Rlt_0_sqr (h a) Hh) as H. unfold Rsqr in H. cbn. lra. }
  destruct (@strict_margin (length ops) (fun a => (INR (nth a (sizes ops) 0%nat) * h a) ^ 2)%R cutoff) as (k & Hk & Hka).
  { intros a Ha. split; [|apply Hcut; exact Ha].
    assert (0 < INR (nth a (sizes ops) 0%nat))%R. { apply lt_0_INR. apply (@allpos_nth _ a Hp). lia. }
    specialize (Hh2 a Ha). rewrite Rpow_mult_distr. apply Rmult_lt_0_compat; [apply pow_lt; assumption | exact Hh2]. }
  assert (Hmid : (k * Q2 <= - (x * Q2))%R).
  { eapply Rle_trans; [|exact Hlow]. apply Rle_trans with (k * nsum (length ops) (fun a => INR (nth a (sizes ops) 0%nat) * INR (nth a (sizes ops) 0%nat) / 2 * axis_steps (sizes ops) w a))%R.
    { apply Rmult_le_compat_l; [lra | exact Hpoin]. }
    rewrite <- nsum_scal. apply nsum_le. intros a Ha. specialize (Hka a Ha). cbv beta in Hka. specialize (Hh2 a Ha). pose proof (axis_steps_nonneg (sizes ops) w a) as HS.
    rewrite <- Rmult_assoc. apply Rmult_le_compat_r; [exact HS|]. apply Rmult_le_reg_r with (r := (h a ^ 2)%R); [exact Hh2|]. rewrite Rinv_l by lra. rewrite Rpow_mult_distr in Hka. replace (INR (nth a (sizes ops) 0%nat) ^ 2)%R with (INR (nth a (sizes ops) 0%nat) * INR (nth a (sizes ops) 0%nat))%R in Hka by ring. lra. }
  rewrite Rabs_left1 by exact Hneg. apply Rlt_le_trans with k; [exact Hk|]. apply Rmult_le_reg_r with (r := Q2); [exact HQ|]. lra.
Qed.
