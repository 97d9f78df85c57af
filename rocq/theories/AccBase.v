(** * Taylor estimates *)
From Coq Require Import Reals Lra Lia List ZArith.
From Verif Require Import Prelude NdArr.
Set Implicit Arguments.
Local Open Scope R_scope.

Definition der (f f' : R -> R) : Prop := forall t, derivable_pt_lim f t (f' t).
Lemma der_ext f h f' h' : (forall t, f t = h t) -> (forall t, f' t = h' t) -> der f f' -> der h h'.
Proof.
  intros E E' H t eps He. destruct (H t eps He) as (d & Hd). exists d. intros s Hs Hs2. rewrite <- !E, <- E'. apply Hd; assumption.
Qed.
Lemma der_shift f f' c : der f f' -> der (fun t => f (c + t)) (fun t => f' (c + t)).
Proof. intros H t eps He. destruct (H (c + t) eps He) as (d & Hd). exists d. intros s Hs Hs2. rewrite <- Rplus_assoc. apply Hd; assumption. Qed.
Lemma der_flip f f' c : der f f' -> der (fun t => f (c - t)) (fun t => - f' (c - t)).
Proof.
  intros H. apply (@der_ext (comp f (fun t => c - t)) _ (fun t => f' (c - t) * -1)); [reflexivity | intros; ring |]. intros s. apply derivable_pt_lim_comp; [|apply H].
  replace (-1) with (0 - 1) by ring. apply (@derivable_pt_lim_minus (fun _ => c) id); [apply derivable_pt_lim_const | apply derivable_pt_lim_id].
Qed.
Lemma der_plus f f' h h' : der f f' -> der h h' -> der (fun t => f t + h t) (fun t => f' t + h' t).
Proof. intros A B t. apply (@derivable_pt_lim_plus f h); auto. Qed.
Lemma der_minus f f' h h' : der f f' -> der h h' -> der (fun t => f t - h t) (fun t => f' t - h' t).
Proof. intros A B t. apply (@derivable_pt_lim_minus f h); auto. Qed.
Lemma der_mult f f' h h' : der f f' -> der h h' -> der (fun t => f t * h t) (fun t => f' t * h t + f t * h' t).
Proof. intros A B t. apply (@derivable_pt_lim_mult f h); auto. Qed.
Lemma der_scal c f f' : der f f' -> der (fun t => c * f t) (fun t => c * f' t).
Proof. intros A t. apply (@derivable_pt_lim_scal f); auto. Qed.
Lemma der_const c : der (fun _ => c) (fun _ => 0).
Proof. intros t. apply derivable_pt_lim_const. Qed.
Lemma der_pow n : der (fun t => t ^ S n) (fun t => INR (S n) * t ^ n).
Proof. intros t. apply (derivable_pt_lim_pow t (S n)). Qed.
Lemma der_unique f f' h' : der f f' -> der f h' -> forall t, f' t = h' t.
Proof. intros A B t. apply (uniqueness_limite f t); auto. Qed.

Lemma mvt f f' a b : der f f' -> a < b -> exists c, f b - f a = f' c * (b - a) /\ a < c < b.
Proof. intros H Hab. apply MVT_cor2; [exact Hab | intros; apply H]. Qed.
Lemma lip f f' M a b : der f f' -> (forall t, Rabs (f' t) <= M) -> Rabs (f b - f a) <= M * Rabs (b - a).
Proof.
  intros H HM. destruct (Rtotal_order a b) as [L|[->|L]].
  - destruct (mvt H L) as (c & -> & _). rewrite Rabs_mult. apply Rmult_le_compat_r; [apply Rabs_pos | apply HM].
  - replace (f b - f b) with 0 by ring. replace (b - b) with 0 by ring. rewrite Rabs_R0. lra.
  - destruct (mvt H L) as (c & E & _). replace (f b - f a) with (- (f a - f b)) by ring. rewrite E, Rabs_Ropp, Rabs_mult, (Rabs_minus_sym a b). apply Rmult_le_compat_r; [apply Rabs_pos | apply HM].
Qed.
Lemma grow f f' K n : der f f' -> f 0 = 0 -> (forall t, 0 <= t -> Rabs (f' t) <= K * t ^ n) -> forall t, 0 <= t -> Rabs (f t) <= K / INR (S n) * t ^ S n.
Proof.
  intros H F0 HK t [Ht|<-]; [|rewrite F0, Rabs_R0; cbn; lra]. assert (HS : INR (S n) <> 0) by (apply not_0_INR; lia).
  set (p := fun t => K / INR (S n) * t ^ S n). assert (Hp : der p (fun t => K * t ^ n)).
  { apply (@der_ext p _ (fun t => K / INR (S n) * (INR (S n) * t ^ n))); [reflexivity | intros s; field; exact HS|]. apply der_scal. apply der_pow. }
  assert (P0 : p 0 = 0) by (unfold p; cbn [pow]; ring).
  apply Rabs_le. split.
  - destruct (mvt (der_plus H Hp) Ht) as (c & E & Hc). cbv beta in E. rewrite F0, P0 in E. specialize (HK c ltac:(lra)).
    assert (HK2 : - (K * c ^ n) <= f' c) by (pose proof (Rle_abs (- f' c)); rewrite Rabs_Ropp in *; lra). assert (0 <= (f' c + K * c ^ n) * (t - 0)) by (apply Rmult_le_pos; lra). fold (p t). lra.
  - destruct (mvt (der_minus Hp H) Ht) as (c & E & Hc). cbv beta in E. rewrite F0, P0 in E. specialize (HK c ltac:(lra)).
    assert (HK2 : f' c <= K * c ^ n) by (pose proof (Rle_abs (f' c)); lra). assert (0 <= (K * c ^ n - f' c) * (t - 0)) by (apply Rmult_le_pos; lra). fold (p t). lra.
Qed.
(** One-sided first-order expansion with quadratic remainder. *)
Lemma taylor1 f f1 f2 M x : der f f1 -> der f1 f2 -> (forall t, Rabs (f2 t) <= M) -> forall t, Rabs (f (x + t) - f x - t * f1 x) <= M / 2 * t ^ 2.
Proof.
  intros H1 H2 HM.
  assert (P : forall e, e * e = 1 -> forall t, 0 <= t -> Rabs (f (x + e * t) - f x - e * t * f1 x) <= M / 2 * t ^ 2).
  { intros e He t Ht. assert (D : forall h h', der h h' -> der (fun t => h (x + e * t)) (fun t => e * h' (x + e * t))).
    { intros h h' Hh. apply (@der_ext (comp h (fun t => x + e * t)) _ (fun t => h' (x + e * t) * e)); [reflexivity | intros; ring|]. intros s. apply derivable_pt_lim_comp; [|apply Hh].
      apply (@der_ext (fun t => x + e * t ^ 1) (fun t => x + e * t) (fun t => 0 + e * (INR 1 * t ^ 0)) (fun _ => e)); [intros; cbn; ring | intros; cbn; ring |]. apply der_plus; [apply der_const|]. apply der_scal. apply der_pow. }
    replace (M / 2) with (M / INR 2) by (cbn; lra).
    apply (@grow (fun t => f (x + e * t) - f x - e * t * f1 x) (fun t => e * f1 (x + e * t) - e * f1 x) M 1).
    - apply (@der_ext (fun t => f (x + e * t) - (f x + (e * f1 x) * t ^ 1)) _ (fun t => e * f1 (x + e * t) - (0 + (e * f1 x) * (INR 1 * t ^ 0)))); [intros; cbn; ring | intros; cbn; ring |].
      apply der_minus; [apply D; exact H1|]. apply der_plus; [apply der_const|]. apply der_scal. apply der_pow.
    - cbv beta. rewrite Rmult_0_r, Rplus_0_r. ring.
    - intros s Hs. cbv beta. replace (e * f1 (x + e * s) - e * f1 x) with (e * (f1 (x + e * s) - f1 x)) by ring. rewrite Rabs_mult. pose proof (@lip f1 f2 M x (x + e * s) H2 HM) as L. replace (x + e * s - x) with (e * s) in L by ring. rewrite Rabs_mult in L.
      assert (Ea : Rabs e = 1). { assert (Rabs e * Rabs e = 1) by (rewrite <- Rabs_mult, He; apply Rabs_R1). pose proof (Rabs_pos e). nra. }
      rewrite Ea in *. rewrite (Rabs_right s) in L by lra. rewrite pow_1. lra.
    - exact Ht. }
  intros t. destruct (Rle_lt_dec 0 t) as [Ht|Ht].
  - specialize (P 1 ltac:(ring) t Ht). replace (1 * t) with t in P by ring. exact P.
  - specialize (P (-1) ltac:(ring) (- t) ltac:(lra)). replace (-1 * - t) with t in P by ring. replace ((- t) ^ 2) with (t ^ 2) in P by ring. exact P.
Qed.
(** Centred differences. *)
Lemma centred1_pos f f1 f2 f3 M x : der f f1 -> der f1 f2 -> der f2 f3 -> (forall t, Rabs (f3 t) <= M) -> forall t, 0 <= t -> Rabs (f (x + t) - f (x - t) - 2 * t * f1 x) <= M / 3 * t ^ 3.
Proof.
  intros H1 H2 H3 HM t Ht. replace (M / 3) with (M / INR 3) by (cbn; lra).
  apply (@grow (fun t => f (x + t) - f (x - t) - 2 * t * f1 x) (fun t => f1 (x + t) + f1 (x - t) - 2 * f1 x) M 2).
  - apply (@der_ext (fun t => f (x + t) - f (x - t) - (2 * f1 x) * t ^ 1) _ (fun t => f1 (x + t) - (- f1 (x - t)) - (2 * f1 x) * (INR 1 * t ^ 0))); [intros; cbn; ring | intros; cbn; ring |].
    apply der_minus; [apply der_minus; [apply der_shift; exact H1 | apply der_flip; exact H1]|]. apply der_scal. apply der_pow.
  - cbv beta. rewrite Rplus_0_r, Rminus_0_r. ring.
  - intros s Hs. cbv beta. replace (M * s ^ 2) with (2 * M / INR 2 * s ^ 2) by (cbn; field).
    apply (@grow (fun t => f1 (x + t) + f1 (x - t) - 2 * f1 x) (fun t => f2 (x + t) + - f2 (x - t) - 0) (2 * M) 1); [| | |exact Hs].
    + apply der_minus; [apply der_plus; [apply der_shift; exact H2 | apply der_flip; exact H2] | apply der_const].
    + rewrite Rplus_0_r, Rminus_0_r. ring.
    + intros r Hr. replace (f2 (x + r) + - f2 (x - r) - 0) with (f2 (x + r) - f2 (x - r)) by ring. pose proof (@lip f2 f3 M (x - r) (x + r) H3 HM) as L. replace (x + r - (x - r)) with (2 * r) in L by ring. rewrite (Rabs_right (2 * r)) in L by lra. rewrite pow_1. lra.
  - exact Ht.
Qed.
Lemma centred1 f f1 f2 f3 M x t : der f f1 -> der f1 f2 -> der f2 f3 -> (forall t, Rabs (f3 t) <= M) -> Rabs (f (x + t) - f (x - t) - 2 * t * f1 x) <= M / 3 * Rabs t ^ 3.
Proof.
  intros H1 H2 H3 HM. destruct (Rle_lt_dec 0 t) as [Ht|Ht]; [rewrite (Rabs_right t) by lra; apply (@centred1_pos f f1 f2 f3); assumption|].
  rewrite (Rabs_left t) by lra. pose proof (@centred1_pos f f1 f2 f3 M x H1 H2 H3 HM (- t) ltac:(lra)) as P. replace (x + - t) with (x - t) in P by ring. replace (x - - t) with (x + t) in P by ring.
  rewrite <- Rabs_Ropp. replace (- (f (x + t) - f (x - t) - 2 * t * f1 x)) with (f (x - t) - f (x + t) - 2 * - t * f1 x) by ring. exact P.
Qed.
Lemma centred2 f f1 f2 f3 f4 M x t : der f f1 -> der f1 f2 -> der f2 f3 -> der f3 f4 -> (forall t, Rabs (f4 t) <= M) -> Rabs (f (x + t) - 2 * f x + f (x - t) - t ^ 2 * f2 x) <= M / 12 * t ^ 4.
Proof.
  intros H1 H2 H3 H4 HM.
  assert (P : forall t, 0 <= t -> Rabs (f (x + t) - 2 * f x + f (x - t) - t ^ 2 * f2 x) <= M / 12 * t ^ 4).
  { clear t. intros t Ht. replace (M / 12) with (M / 3 / INR 4) by (cbn; field).
    apply (@grow (fun t => f (x + t) - 2 * f x + f (x - t) - t ^ 2 * f2 x) (fun t => f1 (x + t) - f1 (x - t) - 2 * t * f2 x) (M / 3) 3).
    - apply (@der_ext (fun t => (f (x + t) - 2 * f x) + f (x - t) - f2 x * t ^ 2) _ (fun t => (f1 (x + t) - 0) + (- f1 (x - t)) - f2 x * (INR 2 * t ^ 1))); [intros; cbn; ring | intros; cbn; ring |].
      apply der_minus; [|apply der_scal; apply der_pow]. apply der_plus; [apply der_minus; [apply der_shift; exact H1 | apply der_const] | apply der_flip; exact H1].
    - cbv beta. rewrite Rplus_0_r, Rminus_0_r. cbn. ring.
    - intros s Hs. apply (@centred1_pos f1 f2 f3 f4); assumption.
    - exact Ht. }
  destruct (Rle_lt_dec 0 t) as [Ht|Ht]; [apply P; exact Ht|]. specialize (P (- t) ltac:(lra)). replace (x + - t) with (x - t) in P by ring. replace (x - - t) with (x + t) in P by ring. replace ((- t) ^ 2) with (t ^ 2) in P by ring. replace ((- t) ^ 4) with (t ^ 4) in P by ring.
  replace (f (x + t) - 2 * f x + f (x - t) - t ^ 2 * f2 x) with (f (x - t) - 2 * f x + f (x + t) - t ^ 2 * f2 x) by ring. exact P.
Qed.
(** Linear interpolation. *)
Lemma lerp_error f f1 f2 M x h th : der f f1 -> der f1 f2 -> (forall t, Rabs (f2 t) <= M) -> 0 <= th <= 1 -> Rabs ((1 - th) * f x + th * f (x + h) - f (x + th * h)) <= M / 8 * h ^ 2.
Proof.
  intros H1 H2 HM Hth. set (y := x + th * h). pose proof (@taylor1 f f1 f2 M y H1 H2 HM (- th * h)) as A. pose proof (@taylor1 f f1 f2 M y H1 H2 HM ((1 - th) * h)) as B.
  replace (y + - th * h) with x in A by (unfold y; ring). replace (y + (1 - th) * h) with (x + h) in B by (unfold y; ring).
  set (a := f x - f y - - th * h * f1 y) in *. set (b := f (x + h) - f y - (1 - th) * h * f1 y) in *.
  replace ((1 - th) * f x + th * f (x + h) - f y) with ((1 - th) * a + th * b) by (unfold a, b; ring).
  eapply Rle_trans; [apply Rabs_triang|]. rewrite !Rabs_mult, (Rabs_right (1 - th)), (Rabs_right th) by lra.
  assert (HM0 : 0 <= M) by (pose proof (HM 0); pose proof (Rabs_pos (f2 0)); lra).
  apply Rle_trans with ((1 - th) * (M / 2 * (- th * h) ^ 2) + th * (M / 2 * ((1 - th) * h) ^ 2)); [apply Rplus_le_compat; apply Rmult_le_compat_l; lra|].
  replace ((1 - th) * (M / 2 * (- th * h) ^ 2) + th * (M / 2 * ((1 - th) * h) ^ 2)) with ((th * (1 - th)) * (M / 2 * h ^ 2)) by (field; lra).
  replace (M / 8 * h ^ 2) with (1 / 4 * (M / 2 * h ^ 2)) by field. apply Rmult_le_compat_r; [apply Rmult_le_pos; [lra | apply pow2_ge_0] |]. pose proof (Rle_0_sqr (th - 1 / 2)) as Q. unfold Rsqr in Q. lra.
Qed.
(** Periods of the sine. *)
Lemma sin_periods x k : sin (x + 2 * PI * IZR k) = sin x.
Proof.
  destruct (Z_le_gt_dec 0 k) as [H|H].
  - rewrite <- (Z2Nat.id k H), <- INR_IZR_INZ. replace (2 * PI * INR (Z.to_nat k))%R with (2 * INR (Z.to_nat k) * PI)%R by ring. apply sin_period.
  - rewrite <- (sin_period (x + 2 * PI * IZR k) (Z.to_nat (- k))). f_equal. rewrite INR_IZR_INZ, Z2Nat.id, opp_IZR by lia. ring.
Qed.
(** The value of the forcing at a wrapped index. *)
Lemma derivable_pt_lim_ext f h x l : (forall t, f t = h t) -> derivable_pt_lim f x l -> derivable_pt_lim h x l.
Proof. intros E H eps He. destruct (H eps He) as (d & Hd). exists d. intros s Hs Hs2. rewrite <- !E. apply Hd; assumption. Qed.
