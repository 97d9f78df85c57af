(** * C86: transport with the Lax-Wendroff interpolation *)
From Verif Require Import Prelude NdArr Grids_model Spec SpecLin SpecDiff Boundaries_model BoundariesPeriodic FD_model Interp_model Advection_model Diffusion_model PRep FDProofs FDProps InterpProps UpwindProps AdvectionProofs AdvectionProps MonotoneProps DiffusionProps Poincare SpecNS SpecAcc AccBase AccuracyProps SpecConv ConvergeProps QRProps SpecLax.
Set Implicit Arguments.
Local Open Scope R_scope.

(** ** Numbers *)
Lemma taylor2_pos f f1 f2 f3 M x : der f f1 -> der f1 f2 -> der f2 f3 -> (forall t, Rabs (f3 t) <= M) -> forall t, 0 <= t -> Rabs (f (x + t) - f x - t * f1 x - t ^ 2 / 2 * f2 x) <= M / 6 * t ^ 3.
Proof.
  intros H1 H2 H3 HM t Ht. replace (M / 6) with (M / 2 / INR 3) by (cbn; field).
  apply (@grow (fun t => f (x + t) - f x - t * f1 x - t ^ 2 / 2 * f2 x) (fun t => f1 (x + t) - f1 x - t * f2 x) (M / 2) 2); [| | |exact Ht].
  - apply (@der_ext (fun t => f (x + t) - (f x + f1 x * t ^ 1 + f2 x / 2 * t ^ 2)) _ (fun t => f1 (x + t) - (0 + f1 x * (INR 1 * t ^ 0) + f2 x / 2 * (INR 2 * t ^ 1)))); [intros; field | intros; cbn; field |].
    apply der_minus; [apply der_shift; exact H1|]. apply der_plus; [apply der_plus; [apply der_const|]|]; apply der_scal; apply der_pow.
  - cbv beta. rewrite Rplus_0_r. cbn. field.
  - intros s Hs. apply (@taylor1 f1 f2 f3); assumption.
Qed.
Lemma taylor2 f f1 f2 f3 M x t : der f f1 -> der f1 f2 -> der f2 f3 -> (forall t, Rabs (f3 t) <= M) -> Rabs (f (x + t) - f x - t * f1 x - t ^ 2 / 2 * f2 x) <= M / 6 * Rabs t ^ 3.
Proof.
  intros H1 H2 H3 HM. destruct (Rle_lt_dec 0 t) as [Ht|Ht]; [rewrite (Rabs_right t) by lra; apply (@taylor2_pos f f1 f2 f3); assumption|].
  rewrite (Rabs_left t) by lra.
  assert (D2 : der (fun s => - f1 (0 - s)) (fun s => f2 (0 - s))) by (apply (@der_ext (fun s => -1 * f1 (0 - s)) _ (fun s => -1 * - f2 (0 - s))); [intros; ring | intros; ring | apply der_scal; apply der_flip; exact H2]).
  pose proof (@taylor2_pos (fun s => f (0 - s)) (fun s => - f1 (0 - s)) (fun s => f2 (0 - s)) (fun s => - f3 (0 - s)) M (- x) (der_flip 0 H1) D2 (der_flip 0 H3)) as P.
  specialize (P ltac:(intros s; cbv beta; rewrite Rabs_Ropp; apply HM) (- t) ltac:(lra)). cbv beta in P.
  replace (0 - (- x + - t)) with (x + t) in P by ring. replace (0 - - x) with x in P by ring. replace ((- t) ^ 2) with (t ^ 2) in P by ring.
  replace (f (x + t) - f x - t * f1 x - t ^ 2 / 2 * f2 x) with (f (x + t) - f x - - t * - f1 x - t ^ 2 / 2 * f2 x) by ring. exact P.
Qed.
(** One step on a smooth line function, against the exact shift. *)
Lemma lw_truncation f f1 f2 f3 M x h C : der f f1 -> der f1 f2 -> der f2 f3 -> (forall t, Rabs (f3 t) <= M) -> 0 <= h -> Rabs C <= 1 ->
  Rabs (f x - C / 2 * (f (x + h) - f (x - h)) + C ^ 2 / 2 * (f (x + h) - 2 * f x + f (x - h)) - f (x - C * h)) <= Rabs C * (M / 2 * h ^ 3).
Proof.
  intros H1 H2 H3 HM Hh HC. assert (HM0 : 0 <= M) by (pose proof (HM 0); pose proof (Rabs_pos (f3 0)); lra). pose proof (Rabs_pos C) as HC0. assert (Hh3 : 0 <= h ^ 3) by (apply pow_le; exact Hh).
  pose proof (@centred1 f f1 f2 f3 M x h H1 H2 H3 HM) as A. pose proof (@taylor2 f f1 f2 f3 M x h H1 H2 H3 HM) as P. pose proof (@taylor2 f f1 f2 f3 M x (- h) H1 H2 H3 HM) as Q. pose proof (@taylor2 f f1 f2 f3 M x (- (C * h)) H1 H2 H3 HM) as S.
  rewrite Rabs_Ropp in Q, S. rewrite Rabs_mult in S. rewrite (Rabs_right h) in * by lra. change (x + - h) with (x - h) in Q. change (x + - (C * h)) with (x - C * h) in S.
  set (a := f (x + h) - f (x - h) - 2 * h * f1 x) in *. set (p := f (x + h) - f x - h * f1 x - h ^ 2 / 2 * f2 x) in *. set (q := f (x - h) - f x - - h * f1 x - (- h) ^ 2 / 2 * f2 x) in *. set (s := f (x - C * h) - f x - - (C * h) * f1 x - (- (C * h)) ^ 2 / 2 * f2 x) in *.
  replace (f x - C / 2 * (f (x + h) - f (x - h)) + C ^ 2 / 2 * (f (x + h) - 2 * f x + f (x - h)) - f (x - C * h)) with (- (C / 2) * a + (C ^ 2 / 2 * (p + q) - s)) by (unfold a, p, q, s; field).
  eapply Rle_trans; [apply Rabs_triang|]. assert (T : Rabs (C ^ 2 / 2 * (p + q) - s) <= C ^ 2 / 2 * (Rabs p + Rabs q) + Rabs s).
  { unfold Rminus. eapply Rle_trans; [apply Rabs_triang|]. rewrite Rabs_Ropp, Rabs_mult. rewrite (Rabs_right (C ^ 2 / 2)) by (pose proof (pow2_ge_0 C); lra). apply Rplus_le_compat_r. apply Rmult_le_compat_l; [pose proof (pow2_ge_0 C); lra | apply Rabs_triang]. }
  rewrite Rabs_mult, Rabs_Ropp. unfold Rdiv at 1. rewrite Rabs_mult, (Rabs_right (/ 2)) by lra.
  rewrite <- (pow2_abs C) in T |- *. set (c := Rabs C) in *. clearbody c.
  assert (B1 : c * / 2 * Rabs a <= c * (M * h ^ 3 / 6)). { rewrite Rmult_assoc. apply Rmult_le_compat_l; [exact HC0 | lra]. }
  assert (c2 : c ^ 2 <= c) by nra. assert (c3 : c ^ 3 <= c) by (replace (c ^ 3) with (c * c ^ 2) by ring; pose proof (@Rmult_le_compat_l c (c ^ 2) 1 HC0 ltac:(lra)); lra). assert (HX : 0 <= M * h ^ 3 / 6) by (assert (0 <= M * h ^ 3) by (apply Rmult_le_pos; assumption); lra).
  assert (B2 : c ^ 2 / 2 * (Rabs p + Rabs q) <= c * (M * h ^ 3 / 6)). { apply Rle_trans with (c ^ 2 * (M * h ^ 3 / 6)); [|apply Rmult_le_compat_r; [exact HX | exact c2]]. unfold Rdiv at 1. rewrite Rmult_assoc. apply Rmult_le_compat_l; [apply pow2_ge_0 | lra]. }
  assert (B3 : Rabs s <= c * (M * h ^ 3 / 6)). { eapply Rle_trans; [exact S|]. replace (M / 6 * (c * h) ^ 3) with (c ^ 3 * (M * h ^ 3 / 6)) by field. apply Rmult_le_compat_r; [exact HX | exact c3]. }
  replace (c * (M / 2 * h ^ 3)) with (c * (M * h ^ 3 / 6) + (c * (M * h ^ 3 / 6) + c * (M * h ^ 3 / 6))) by field. lra.
Qed.
(** Minkowski's inequality with a bounded second summand. *)
Lemma mean_square_triangle s (A B : list Z -> R) E T : 0 <= E -> 0 <= T -> asum s (fun ix => A ix ^ 2) <= INR (asize s) * E ^ 2 -> (forall ix, inb s ix -> Rabs (B ix) <= T) -> asum s (fun ix => (A ix + B ix) ^ 2) <= INR (asize s) * (E + T) ^ 2.
Proof.
  intros HE HT HA HB. set (N := INR (asize s)) in *. assert (HN : 0 <= N) by apply pos_INR.
  pose proof (asum_cs s (fun ix => Rabs (A ix))) as CS. fold N in CS. cbv beta in CS. rewrite (@asum_ext s (fun ix => Rabs (A ix) * Rabs (A ix)) (fun ix => A ix ^ 2)) in CS by (intros ix _; rewrite <- Rabs_mult, Rabs_right; [ring | pose proof (Rle_0_sqr (A ix)); unfold Rsqr in *; lra]).
  set (S := asum s (fun ix => Rabs (A ix))) in *. assert (HS : 0 <= S) by (apply asum_nonneg; intros; apply Rabs_pos).
  assert (SE : S <= N * E). { apply Rsqr_incr_0_var; [|nra]. unfold Rsqr. eapply Rle_trans; [exact CS|]. replace (N * E * (N * E)) with (N * (N * E ^ 2)) by ring. apply Rmult_le_compat_l; assumption. }
  apply Rle_trans with (asum s (fun ix => A ix ^ 2 + (2 * T * Rabs (A ix) + T ^ 2))).
  - apply asum_le. intros ix Hix. specialize (HB ix Hix). replace ((A ix + B ix) ^ 2) with (A ix ^ 2 + (2 * (A ix * B ix) + B ix ^ 2)) by ring. apply Rplus_le_compat_l. apply Rplus_le_compat.
    + pose proof (Rle_abs (A ix * B ix)). rewrite Rabs_mult in *. pose proof (Rabs_pos (A ix)). nra.
    + rewrite <- (pow2_abs (B ix)). pose proof (Rabs_pos (B ix)). nra.
  - rewrite asum_plus, asum_plus, asum_scal, asum_const. fold N S. nra.
Qed.
Lemma lw_energy s ax C F : allpos s -> periodic s F ->
  asum s (fun ix => lax_wendroff_update ax C F ix ^ 2) + C ^ 2 * (1 - C ^ 2) / 4 * asum s (fun ix => (F (next ax ix) - 2 * F ix + F (prev ax ix)) ^ 2) = asum s (fun ix => F ix ^ 2).
Proof.
  intros Hs HF. set (k1 := (C ^ 2 - C ^ 3) / 2). set (k2 := (C ^ 2 + C ^ 3) / 2). set (k3 := - C * (1 - C ^ 2)).
  rewrite <- asum_scal, <- asum_plus.
  rewrite (@asum_ext s _ (fun ix => F ix ^ 2 + (k1 * (F (next ax ix) ^ 2 - F ix ^ 2) + (k2 * (F (prev ax ix) ^ 2 - F ix ^ 2) + k3 * (F ix * F (next ax ix) - F (prev ax ix) * F ix)))) ) by (intros ix _; unfold lax_wendroff_update, k1, k2, k3; field).
  rewrite !asum_plus, !asum_scal, !asum_minus.
  assert (P2 : periodic s (fun ix => F ix ^ 2)) by (intros ix Hix; rewrite (HF ix Hix); reflexivity).
  assert (P3 : periodic s (fun ix => F (prev ax ix) * F ix)) by (intros ix Hix; rewrite (HF ix Hix); f_equal; apply (periodic_shift ax (-1) HF ix Hix)).
  unfold next, prev. rewrite (@asum_shift_periodic s ax 1 (fun ix => F ix ^ 2) Hs P2), (@asum_shift_periodic s ax (-1) (fun ix => F ix ^ 2) Hs P2).
  pose proof (@asum_shift_periodic s ax 1 _ Hs P3) as E. cbv beta in E. unfold prev in E. rewrite (@asum_ext s _ (fun ix => F ix * F (shiftix ax 1 ix))) in E by (intros ix _; rewrite shiftix_add; change (-1 + 1)%Z with 0%Z; rewrite shiftix_0; reflexivity).
  rewrite E. ring.
Qed.

(** ** The code *)
Definition lax_value (c : gvar) (v : list gvar) (dt : R) (a : nat) (ix : list Z) : R :=
  (pval (garray c) ix + pval (garray c) (next a ix)) / 2 - dt / hstep (ggrid (garray c)) a * face_velocity c v a ix / 2 * (pval (garray c) (next a ix) - pval (garray c) ix).
Section Lax.
Variables (c : gvar) (v : list gvar) (dt : R).
Let g := ggrid (garray c).
Let o := goff (garray c).
Hypothesis (Hc : periodic_field c) (Hd : (0 < gndim g)%nat) (Hv : periodic_vec g v) (Hh : homogeneous_vec v).
Lemma adv_lax_prep : exists w, advect_general c v linear_fn lax_wendroff dt = Ok w /\
  prep g o (fun ix => - outflow g (fun a jx => lax_value c v dt a jx * face_velocity c v a jx) ix) w.
Proof.
  apply general_prep; auto.
  - intros i Hi. pose proof (pf_per Hc) as Pc. fold g in Pc. pose proof (@face_velocity_periodic g c v i Hv eq_refl Hi) as Pv.
    intros ix Hix. unfold lax_value. fold g. fold g in Hix. pose proof (periodic_shift i 1 Pc ix Hix) as P3. cbv beta in P3. unfold next. rewrite (Pv ix Hix), (Pc ix Hix), P3. reflexivity.
  - intros av HLav Hav i Hi. fold o. pose proof (os_eq Hc Hi) as He. fold o in He. fold o in Hav.
    set (oi := nth i (cv_offsets o) []) in *.
    destruct (Hav i Hi) as ((Gu & Bu & Su & Vu) & _). fold oi in Bu.
    assert (Hd1 : (nth i (goff (garray (nth i av dgv))) 0 - nth i (goff (garray c)) 0 == 1 # 2)%Q).
    { rewrite (off_eq_nth i Bu), (off_eq_nth i He). unfold offs. rewrite nth_upd_same by (unfold o; rewrite (pf_off Hc); auto). fold o. ring. }
    destruct (half_floor Hd1) as (Hf & Hz).
    destruct (@lax_prep _ _ _ c i (nth i o 0 + (1 # 2))%Q oi av (nth i av dgv) (pf_wfg Hc) (pf_per Hc) Hi (pf_off Hc) (pf_pvar Hc) He) with (dt := dt) as (w & E & _ & (P & _)); auto.
    + intros E. fold o in E. Lqa.lra.
    + apply nth_error_nth'. lia.
    + split; auto.
    + exists w. split; [exact E|]. eapply prep_ext; [|exact P]. intros ix Hix. cbv beta zeta. rewrite Hf, shiftix_0, (Vu ix Hix). unfold lax_value. fold g. unfold next. change (0 + 1)%Z with 1%Z.
      pose proof (step_nz (pf_wfg Hc) Hi) as Hnz. fold g in Hnz. destruct (Rlt_dec _ _); field; exact Hnz.
Qed.
End Lax.

(* @prop C86 Advection with the Lax-Wendroff interpolation of a periodic scalar by periodic velocities returns, at the scalar's offset, minus the net outflow of (mean of the two cells at the face minus half the Courant number times their difference) times (velocity linearly interpolated to the face); the coefficients do not depend on the direction of the flow. *)
Lemma lax_wendroff_flux_form_lem : forall c v dt, periodic_field c -> (0 < gndim (ggrid (garray c)))%nat ->
  periodic_vec (ggrid (garray c)) v -> homogeneous_vec v ->
  exists w, advect_general c v linear_fn lax_wendroff dt = Ok w /\ is_field w (ggrid (garray c)) (goff (garray c))
    (fun ix => - outflow (ggrid (garray c)) (fun a jx =>
       ((pval (garray c) jx + pval (garray c) (next a jx)) / 2 - dt / hstep (ggrid (garray c)) a * face_velocity c v a jx / 2 * (pval (garray c) (next a jx) - pval (garray c) jx))
       * face_velocity c v a jx) ix).
Proof. intros c v dt Hc Hd Hv Hh. exact (adv_lax_prep dt Hc Hd Hv Hh). Qed.
(* @ex *)
Lemma lax_wendroff_flux_form_ex_lem :
  periodic_field ipc /\ (0 < gndim (ggrid (garray ipc)))%nat /\ periodic_vec (ggrid (garray ipc)) ipv /\ homogeneous_vec ipv.
Proof. split; [exact ipc_pf|]. split; [cbn; lia|]. split; [exact ipv_pv | exact ipv_hom]. Qed.

Section Uni.
Variables (c : gvar) (v : list gvar) (dt V : R) (ax : nat).
Let g := ggrid (garray c).
Let C := V * dt / hstep g ax.
Hypothesis (Hc : periodic_field c) (Hax : (ax < gndim g)%nat) (Hu : uniform_flow g ax V v).
Lemma uniform_face a ix : (a < gndim g)%nat -> length ix = gndim g -> face_velocity c v a ix = if (a =? ax)%nat then V else 0.
Proof.
  intros Ha Hix. destruct Hu as (Hv & _ & HV). pose proof (proj1 Hv) as HL. rewrite face_velocity_nth by lia. destruct (periodic_vec_nth Hv Ha) as (Hp & Hg).
  set (K := if (a =? ax)%nat then V else 0) in *. cut (K <= lerp (gndim (ggrid (garray c))) (goff (garray (nth a v dgv))) (offs a (1 # 2) (goff (garray c))) (pval (garray (nth a v dgv))) ix <= K); [lra|].
  apply (@lerp_bounds (gshape g)); [|exact Hix]. intros jx Hj. assert (E : pval (garray (nth a v dgv)) jx = K); [|lra].
  unfold pval. destruct Hp as ((Hw & Hs & _) & _). rewrite Hs, Hg. apply (HV a (nth a v dgv)); [apply nth_error_nth'; lia|]. apply inb_wrap; [|exact Hj]. rewrite Hg in Hw. apply Hw.
Qed.
Lemma uniform_rate : exists w, advect_general c v linear_fn lax_wendroff dt = Ok w /\
  is_field w g (goff (garray c)) (fun ix => - (lax_value c v dt ax ix - lax_value c v dt ax (prev ax ix)) * V / hstep g ax).
Proof.
  pose proof Hu as (Hv & Hh & _). destruct (@adv_lax_prep c v dt Hc ltac:(fold g; lia) Hv Hh) as (w & E & P). exists w. split; [exact E|]. eapply prep_ext; [|exact P].
  intros ix Hix. fold g in Hix. pose proof (inb_length _ _ Hix) as L. cbv beta. unfold outflow. fold g. assert (LS : forall a k, length (shiftix a k ix) = gndim g) by (intros a k; unfold shiftix; rewrite upd_length; exact L).
  rewrite (@nsum_pick (gndim g) _ ax Hax).
  - unfold prev. rewrite !uniform_face by (try exact Hax; try exact L; apply LS). rewrite Nat.eqb_refl. unfold Rdiv. ring.
  - intros a Ha Hne. unfold prev. rewrite !uniform_face by (try exact Ha; try exact L; apply LS). apply Nat.eqb_neq in Hne. rewrite Hne. unfold Rdiv. ring.
Qed.
Lemma uniform_step c' : euler_step (fun c => advect_general c v linear_fn lax_wendroff dt) dt c c' ->
  periodic_field c' /\ is_field (garray c') g (goff (garray c)) (fun ix => lax_wendroff_update ax C (pval (garray c)) ix).
Proof.
  intros (d & Ed & Eb & P). destruct uniform_rate as (w & Ew & (_ & _ & _ & Vw)). rewrite Ed in Ew. apply ok_inj in Ew. subst w.
  assert (P' : is_field (garray c') g (goff (garray c)) (fun ix => lax_wendroff_update ax C (pval (garray c)) ix)).
  { eapply prep_ext; [|exact P]. intros ix Hix. cbv beta. fold g in Hix. rewrite Vw by exact Hix. pose proof (inb_length _ _ Hix) as L. unfold lax_wendroff_update, lax_value. fold g.
    rewrite <- (@pval_inb (garray c) ix) by (rewrite (proj1 (proj2 (proj1 Hc))); exact Hix).
    assert (LS : length (prev ax ix) = gndim g) by (unfold prev, shiftix; rewrite upd_length; exact L).
    rewrite !uniform_face by assumption. rewrite Nat.eqb_refl. assert (En : next ax (prev ax ix) = ix) by (unfold next, prev; rewrite shiftix_add; change (1 + -1)%Z with 0%Z; apply shiftix_0). rewrite En.
    unfold C. field. apply (step_nz (pf_wfg Hc) Hax). }
  split; [|exact P']. destruct P' as (A & B & D & _). destruct Hc as ((W & _ & Ho) & Hb). split; [split; [rewrite A; exact W|]; split; [rewrite A; exact D | rewrite A, (off_eq_length B); exact Ho]|]. unfold perbc in *. rewrite Eb, A. exact Hb.
Qed.
End Uni.

(* @prop C86 In a uniform flow of speed V along one axis, one forward-Euler step of Lax-Wendroff advection never fails, stays periodic and is the classical scheme: c - C/2 (next - prev) + C^2/2 (next - 2 c + prev) in every cell, with the Courant number C = V dt / h; other axes play no role. *)
Lemma lax_wendroff_uniform_step_lem : forall c v dt V ax c', let g := ggrid (garray c) in
  periodic_field c -> (ax < gndim g)%nat -> uniform_flow g ax V v ->
  is_ok (advect_general c v linear_fn lax_wendroff dt) /\
  (euler_step (fun c => advect_general c v linear_fn lax_wendroff dt) dt c c' ->
   periodic_field c' /\ is_field (garray c') g (goff (garray c)) (fun ix => lax_wendroff_update ax (V * dt / hstep g ax) (pval (garray c)) ix)).
Proof.
  intros c v dt V ax c' g Hc Hax Hu. split; [destruct (@uniform_rate c v dt V ax Hc Hax Hu) as (w & E & _); exists w; exact E|]. intros HE. exact (@uniform_step c v dt V ax Hc Hax Hu c' HE).
Qed.
(* @prop C86 Lax-Wendroff transport in a uniform flow dissipates exactly C^2 (1 - C^2) / 4 times the sum of the squared second differences: the sum of squares of the scalar is unchanged for |C| = 1 or C = 0 and, for every Courant number of size at most 1, never grows over any number of steps. *)
Lemma lax_wendroff_energy_lem : forall v dt V ax (run : nat -> gvar), let g := ggrid (garray (run 0%nat)) in let C := V * dt / hstep g ax in
  periodic_field (run 0%nat) -> (ax < gndim g)%nat -> uniform_flow g ax V v ->
  (forall n, euler_step (fun c => advect_general c v linear_fn lax_wendroff dt) dt (run n) (run (S n))) ->
  (forall n, sum_squares (garray (run (S n))) + C ^ 2 * (1 - C ^ 2) / 4 * asum (gshape g) (fun ix => (pval (garray (run n)) (next ax ix) - 2 * pval (garray (run n)) ix + pval (garray (run n)) (prev ax ix)) ^ 2)
     = sum_squares (garray (run n))) /\
  (Rabs C <= 1 -> forall n m, (n <= m)%nat -> sum_squares (garray (run m)) <= sum_squares (garray (run n))).
Proof.
  intros v dt V ax run g C Hc Hax Hu Hrun.
  assert (I : forall n, periodic_field (run n) /\ ggrid (garray (run n)) = g).
  { induction n as [|n (I1 & I2)]; [split; [exact Hc | reflexivity]|]. destruct (@uniform_step (run n) v dt V ax I1 ltac:(rewrite I2; exact Hax) ltac:(rewrite I2; exact Hu) _ (Hrun n)) as (J & (A & _)). split; [exact J | rewrite A; exact I2]. }
  assert (E : forall n, sum_squares (garray (run (S n))) + C ^ 2 * (1 - C ^ 2) / 4 * asum (gshape g) (fun ix => (pval (garray (run n)) (next ax ix) - 2 * pval (garray (run n)) ix + pval (garray (run n)) (prev ax ix)) ^ 2) = sum_squares (garray (run n))).
  { intros n. destruct (I n) as (I1 & I2). destruct (@uniform_step (run n) v dt V ax I1 ltac:(rewrite I2; exact Hax) ltac:(rewrite I2; exact Hu) _ (Hrun n)) as (J & (A & _ & _ & D)). unfold sum_squares. rewrite A, I2 in *.
    rewrite (@asum_ext (gshape g) (fun ix => get (gdata (garray (run (S n)))) ix ^ 2) (fun ix => lax_wendroff_update ax C (pval (garray (run n))) ix ^ 2)) by (intros ix Hix; rewrite D by exact Hix; reflexivity).
    rewrite (@asum_ext (gshape g) (fun ix => get (gdata (garray (run n))) ix ^ 2) (fun ix => pval (garray (run n)) ix ^ 2)) by (intros ix Hix; rewrite pval_inb by (rewrite (proj1 (proj2 (proj1 I1))), I2; exact Hix); reflexivity).
    apply lw_energy; [apply (pf_wfg Hc) | rewrite <- I2; apply pf_per; exact I1]. }
  split; [exact E|]. intros HC n m Hnm. induction Hnm as [|m Hnm IH]; [lra|]. eapply Rle_trans; [|exact IH]. rewrite <- (E m).
  set (S2 := asum _ _). assert (0 <= S2) by (apply asum_nonneg; intros; apply pow2_ge_0). assert (HC2 : C ^ 2 <= 1) by (rewrite <- (pow2_abs C); pose proof (Rabs_pos C); nra). pose proof (pow2_ge_0 C).
  assert (0 <= C ^ 2 * (1 - C ^ 2) / 4 * S2) by (apply Rmult_le_pos; [apply Rmult_le_pos; [apply Rmult_le_pos; lra | lra] | assumption]). lra.
Qed.
(* @prop C86 At Courant number 1 or -1 a Lax-Wendroff step in a uniform flow is exact: the whole field moves by one cell in the direction of the flow. *)
Lemma lax_wendroff_exact_shift_lem : forall c v dt V ax c', let g := ggrid (garray c) in
  periodic_field c -> (ax < gndim g)%nat -> uniform_flow g ax V v -> euler_step (fun c => advect_general c v linear_fn lax_wendroff dt) dt c c' ->
  (V * dt = hstep g ax -> is_field (garray c') g (goff (garray c)) (fun ix => pval (garray c) (prev ax ix))) /\
  (V * dt = - hstep g ax -> is_field (garray c') g (goff (garray c)) (fun ix => pval (garray c) (next ax ix))).
Proof.
  intros c v dt V ax c' g Hc Hax Hu HE. pose proof (step_nz (pf_wfg Hc) Hax) as Hnz. fold g in Hnz. destruct (@uniform_step c v dt V ax Hc Hax Hu c' HE) as (_ & P). fold g in P.
  split; intros E; (eapply prep_ext; [|exact P]); intros ix Hix; cbv beta; unfold lax_wendroff_update; rewrite E; [replace (hstep g ax / hstep g ax) with 1 by (field; exact Hnz) | replace (- hstep g ax / hstep g ax) with (-1) by (field; exact Hnz)]; field.
Qed.

(** ** Convergence *)
Lemma moved_periodic g a t f : (a < gndim g)%nat -> box_periodic g f -> box_periodic g (fun x => f (moved_along a t x)).
Proof.
  intros Ha Hf x y Hx Hy H. apply Hf; [rewrite mv_length; exact Hx | rewrite mv_length; exact Hy|]. intros b Hb. destruct (H b Hb) as (k & Ek). exists k. unfold moved_along.
  destruct (Nat.eq_dec b a) as [->|Hne]; [rewrite !nth_upd_same by lia; rewrite Ek; ring | rewrite !nth_upd_other by auto; exact Ek].
Qed.
Lemma lw_linear ax C F G ix : lax_wendroff_update ax C (fun jx => F jx + G jx) ix = lax_wendroff_update ax C F ix + lax_wendroff_update ax C G ix.
Proof. unfold lax_wendroff_update. ring. Qed.
(* @prop C86 Lax-Wendroff transport in a uniform flow is second-order accurate: started from the values of a periodic function f with third derivatives bounded by M, for every Courant number of size at most 1, the result after n steps differs from the exactly transported function f(x - V n dt) by at most n dt |V| M h^2 / 2 in root mean square, on grids of every size and dimension. *)
Lemma lax_wendroff_converges_lem : forall v dt V ax f M (run : nat -> gvar), let g := ggrid (garray (run 0%nat)) in let o := goff (garray (run 0%nat)) in
  periodic_field (run 0%nat) -> (ax < gndim g)%nat -> uniform_flow g ax V v -> 0 <= dt -> Rabs (V * dt) <= hstep g ax ->
  box_periodic g f -> bounded_derivatives (gndim g) 3 M f -> samples (garray (run 0%nat)) f ->
  (forall n, euler_step (fun c => advect_general c v linear_fn lax_wendroff dt) dt (run n) (run (S n))) ->
  forall n, rms_within (INR n * dt * (Rabs V * M * hstep g ax ^ 2 / 2)) (garray (run n)) g o (fun x => f (moved_along ax (- (V * (INR n * dt))) x)).
Proof.
  intros v dt V ax f M run g o Hc Hax Hu Hdt HCFL Hf B HS Hrun.
  pose proof (pf_wfg Hc) as Hg. fold g in Hg. pose proof (step_nz Hg Hax) as Hnz. set (h := hstep g ax) in *. assert (Hh : 0 < h) by (pose proof (Rabs_pos (V * dt)); lra). set (C := V * dt / h).
  assert (HC : Rabs C <= 1). { unfold C, Rdiv. rewrite Rabs_mult, Rabs_inv, (Rabs_right h) by lra. apply (Rmult_le_reg_r h); [exact Hh|]. rewrite Rmult_assoc, Rinv_l by lra. lra. }
  pose proof (@bd_pos (gndim g) 3 M f B) as HM. set (T := dt * (Rabs V * M * h ^ 2 / 2)). assert (HT : 0 <= T) by (unfold T; apply Rmult_le_pos; [exact Hdt|]; pose proof (Rabs_pos V); apply Rmult_le_pos; [|lra]; apply Rmult_le_pos; [apply Rmult_le_pos; assumption | apply pow2_ge_0]).
  assert (ET : Rabs C * (M / 2 * h ^ 3) = T). { unfold T, C, Rdiv. rewrite Rabs_mult, Rabs_inv, (Rabs_right h), Rabs_mult, (Rabs_right dt) by lra. field. lra. }
  destruct (proj2 B ax Hax) as (f1 & P1 & _). destruct (@line3 (gndim g) ax f f1 M Hax P1 B) as (f2 & f3 & P2 & P3 & B3).
  assert (N : forall n, periodic_field (run n) /\ rms_within (INR n * T) (garray (run n)) g o (fun x => f (moved_along ax (- (V * (INR n * dt))) x))).
  2:{ intros n. replace (INR n * dt * (Rabs V * M * h ^ 2 / 2)) with (INR n * T) by (unfold T; ring). apply N. }
  induction n as [|n (I1 & (A & Bo & S & I2))].
  - split; [exact Hc|]. split; [reflexivity|]. split; [apply off_eq_refl|]. split; [apply (proj1 (proj2 (proj1 Hc)))|]. cbn [INR]. rewrite !Rmult_0_l, Rmult_0_r, Ropp_0.
    rewrite (@asum_ext _ _ (fun _ => 0)); [rewrite asum_0; cbn; lra|]. intros ix Hix. cbv beta. rewrite HS by exact Hix. rewrite mv_0. fold g o. ring.
  - destruct (@uniform_step (run n) v dt V ax I1 ltac:(rewrite A; exact Hax) ltac:(rewrite A; exact Hu) _ (Hrun n)) as (J & (JA & JB & JS & JD)). rewrite A in *. fold h C in JD.
    split; [exact J|]. split; [exact JA|]. split; [eapply off_eq_trans; [exact JB | exact Bo]|]. split; [exact JS|].
    set (un := fun x => f (moved_along ax (- (V * (INR n * dt))) x)) in *. set (um := fun x => f (moved_along ax (- (V * (INR (Datatypes.S n) * dt))) x)).
    assert (Pu : box_periodic g un) by (apply (@moved_periodic g ax (- (V * (INR n * dt))) f Hax Hf)).
    set (F := fun ix => un (point g o ix)). set (e := fun ix => pval (garray (run n)) ix - F ix).
    assert (PF : periodic (gshape g) F) by (intros ix Hix; apply (@point_wrap g o un ix Hg Pu Hix)).
    assert (Pe : periodic (gshape g) e). { intros ix Hix. unfold e. rewrite (PF ix Hix). f_equal. pose proof (pf_per I1) as PP. rewrite A in PP. apply PP. exact Hix. }
    rewrite (@asum_ext (gshape g) _ (fun ix => (lax_wendroff_update ax C e ix + (lax_wendroff_update ax C F ix - um (point g o ix))) ^ 2)).
    2:{ intros ix Hix. rewrite JD by exact Hix. cbv beta. fold (um (point g o ix)). f_equal. unfold lax_wendroff_update, e. ring. }
    replace (INR (Datatypes.S n) * T) with (INR n * T + T) by (rewrite S_INR; ring). apply mean_square_triangle; [apply Rmult_le_pos; [apply pos_INR | exact HT] | exact HT | |].
    + pose proof (@lw_energy (gshape g) ax C e (proj1 (proj2 (proj2 Hg))) Pe) as EN. eapply Rle_trans; [|apply I2]. rewrite (@asum_ext (gshape g) (fun ix => (get (gdata (garray (run n))) ix - f (moved_along ax (- (V * (INR n * dt))) (point g o ix))) ^ 2) (fun ix => e ix ^ 2)) by (intros ix Hix; unfold e, F; rewrite pval_inb by (rewrite S; exact Hix); reflexivity).
      rewrite <- EN. set (S2 := asum _ (fun ix => (e (next ax ix) - _ + _) ^ 2)). assert (0 <= S2) by (apply asum_nonneg; intros; apply pow2_ge_0). assert (HC2 : C ^ 2 <= 1) by (rewrite <- (pow2_abs C); pose proof (Rabs_pos C); nra). pose proof (pow2_ge_0 C).
      assert (0 <= C ^ 2 * (1 - C ^ 2) / 4 * S2) by (apply Rmult_le_pos; [apply Rmult_le_pos; [apply Rmult_le_pos; lra | lra] | assumption]). lra.
    + intros ix Hix. pose proof (inb_length _ _ Hix) as L. rewrite <- ET. set (x := point g o ix). assert (Lx : length x = gndim g) by apply point_length. set (y := moved_along ax (- (V * (INR n * dt))) x). assert (Ly : length y = gndim g) by (unfold y; rewrite mv_length; exact Lx).
      pose proof (@lw_truncation (fun t => f (moved_along ax t y)) _ _ _ M 0 h C (partial_der y P1 Hax Ly) (partial_der y P2 Hax Ly) (partial_der y P3 Hax Ly)) as TR. cbv beta in TR.
      specialize (TR ltac:(intros t; apply B3; rewrite mv_length; exact Ly) ltac:(lra) HC). rewrite Rplus_0_l, !Rminus_0_l, mv_0 in TR.
      assert (E1 : F (next ax ix) = f (moved_along ax h y)) by (unfold F, un, y, next; rewrite point_shift by assumption; fold x h; rewrite !mv_mv by (rewrite Lx; exact Hax); f_equal; f_equal; ring).
      assert (E2 : F (prev ax ix) = f (moved_along ax (- h) y)) by (unfold F, un, y, prev; rewrite point_shift by assumption; fold x h; rewrite !mv_mv by (rewrite Lx; exact Hax); f_equal; f_equal; ring).
      assert (E3 : um x = f (moved_along ax (- (C * h)) y)) by (unfold um, y; rewrite !mv_mv by (rewrite Lx; exact Hax); f_equal; f_equal; rewrite S_INR; unfold C; field; lra).
      unfold lax_wendroff_update. rewrite E1, E2, E3. exact TR.
Qed.

(** ** Examples: the wave carried along the first axis of the 8 x 8 grid *)
Lemma driftv_uniform : uniform_flow tgg 0 1 driftv.
Proof.
  split; [split; [reflexivity|]; constructor; [|constructor; [|constructor]]; (split; [apply sampled_pf; reflexivity | reflexivity])|]. split; [repeat constructor|].
  intros [|[|[|a]]] u ix E Hix; cbn in E; try discriminate E; injection E as <-; reflexivity.
Qed.
Lemma lw_run dt n : periodic_field (advanced (fun c => advect_general c driftv linear_fn lax_wendroff dt) dt tgc n) /\
  euler_step (fun c => advect_general c driftv linear_fn lax_wendroff dt) dt (advanced (fun c => advect_general c driftv linear_fn lax_wendroff dt) dt tgc n) (advanced (fun c => advect_general c driftv linear_fn lax_wendroff dt) dt tgc (S n)).
Proof.
  assert (Hc : periodic_field tgc) by (apply sampled_pf; reflexivity). destruct driftv_uniform as (HV & HH & _).
  destruct (@advanced_inv (fun c => advect_general c driftv linear_fn lax_wendroff dt) dt tgc Hc) with (n := n) as (A & _ & B); [|split; [exact A | exact B]].
  intros c' H' E. destruct (@lax_wendroff_flux_form_lem c' driftv dt H') as (w & Ew & _); [rewrite E; cbn; lia | rewrite E; exact HV | exact HH | exists w; exact Ew].
Qed.
(* @ex *)
Lemma lax_wendroff_uniform_step_ex_lem : periodic_field tgc /\ (0 < gndim (ggrid (garray tgc)))%nat /\ uniform_flow (ggrid (garray tgc)) 0 1 driftv /\
  exists c', euler_step (fun c => advect_general c driftv linear_fn lax_wendroff (PI / 8)) (PI / 8) tgc c'.
Proof. split; [apply sampled_pf; reflexivity|]. split; [cbn; lia|]. split; [exact driftv_uniform|]. eexists. exact (proj2 (lw_run (PI / 8) 0)). Qed.
(* @ex *)
Lemma lax_wendroff_energy_ex_lem : exists run : nat -> gvar, run 0%nat = tgc /\ periodic_field (run 0%nat) /\ uniform_flow (ggrid (garray (run 0%nat))) 0 1 driftv /\
  (forall n, euler_step (fun c => advect_general c driftv linear_fn lax_wendroff (PI / 8)) (PI / 8) (run n) (run (S n))) /\ Rabs (1 * (PI / 8) / hstep tgg 0) <= 1.
Proof.
  exists (advanced (fun c => advect_general c driftv linear_fn lax_wendroff (PI / 8)) (PI / 8) tgc). split; [reflexivity|]. split; [apply (lw_run (PI / 8) 0)|]. split; [exact driftv_uniform|]. split; [intros n; apply lw_run|].
  rewrite tgg_steps by (cbn; lia). pose proof PI_RGT_0. replace (1 * (PI / 8) / (PI / 4)) with (1 / 2) by (field; lra). rewrite Rabs_right; lra.
Qed.
(* @ex *)
Lemma lax_wendroff_exact_shift_ex_lem : periodic_field tgc /\ uniform_flow (ggrid (garray tgc)) 0 1 driftv /\ 1 * (PI / 4) = hstep (ggrid (garray tgc)) 0 /\
  exists c', euler_step (fun c => advect_general c driftv linear_fn lax_wendroff (PI / 4)) (PI / 4) tgc c'.
Proof. split; [apply sampled_pf; reflexivity|]. split; [exact driftv_uniform|]. split; [change (ggrid (garray tgc)) with tgg; rewrite tgg_steps by (cbn; lia); lra|]. eexists. exact (proj2 (lw_run (PI / 4) 0)). Qed.
(* @ex *)
Lemma lax_wendroff_converges_ex_lem : exists run : nat -> gvar, let g := ggrid (garray (run 0%nat)) in run 0%nat = tgc /\ periodic_field (run 0%nat) /\ (0 < gndim g)%nat /\ uniform_flow g 0 1 driftv /\ 0 <= PI / 8 /\ Rabs (1 * (PI / 8)) <= hstep g 0 /\
  box_periodic g (wave 0 0) /\ bounded_derivatives (gndim g) 3 1 (wave 0 0) /\ samples (garray (run 0%nat)) (wave 0 0) /\
  (forall n, euler_step (fun c => advect_general c driftv linear_fn lax_wendroff (PI / 8)) (PI / 8) (run n) (run (S n))).
Proof.
  pose proof PI_RGT_0. exists (advanced (fun c => advect_general c driftv linear_fn lax_wendroff (PI / 8)) (PI / 8) tgc). cbv zeta. split; [reflexivity|]. split; [apply (lw_run (PI / 8) 0)|]. split; [cbn; lia|]. split; [exact driftv_uniform|]. split; [lra|].
  split; [change (hstep (ggrid (garray (advanced (fun c => advect_general c driftv linear_fn lax_wendroff (PI / 8)) (PI / 8) tgc 0))) 0) with (hstep tgg 0); rewrite tgg_steps by (cbn; lia); rewrite Rabs_right; lra|].
  split; [apply wave_periodic|]. split; [apply wave_bd|]. split; [apply sampled_samples|]. intros n. apply lw_run.
Qed.

(** ** It is not monotone *)
Definition lwg : grid := mkgrid [4%nat] [1] [(0, 4)].
Definition lwc : gvar := mkgv (mkga (mkarr [4%nat] (fun ix => if (nth 0 ix 0 <? 2)%Z then 0 else 1)) [1 # 2]%Q lwg) (periodic_bc 1).
Definition lwv : list gvar := [mkgv (mkga (mkarr [4%nat] (fun _ => 1)) [1]%Q lwg) (periodic_bc 1)].
Lemma lwg_wf : wfg lwg.
Proof. split; [reflexivity|]. split; [reflexivity|]. split; [repeat constructor|]. constructor; [lra | constructor]. Qed.
Lemma lwc_pf : periodic_field lwc.
Proof. split; [split; [exact lwg_wf | split; reflexivity] | reflexivity]. Qed.
Lemma lwv_uniform : uniform_flow lwg 0 1 lwv.
Proof.
  split; [split; [reflexivity|]; constructor; [|constructor]; split; [split; [split; [exact lwg_wf | split; reflexivity] | reflexivity] | reflexivity]|]. split; [repeat constructor|].
  intros [|[|a]] u ix E Hix; cbn in E; try discriminate E; injection E as <-; reflexivity.
Qed.
(* @prop C86 Unlike the upwind scheme, Lax-Wendroff transport does not respect bounds: at Courant number 1/2 a step profile with values 0 and 1 yields the value 9/8 after one step, so "values stay between the old minimum and maximum" is false for it (which is why the flux limiters exist). *)
Lemma lax_wendroff_monotone_refuted_lem : ~ (forall c v dt V ax c' m M, let g := ggrid (garray c) in
  periodic_field c -> (ax < gndim g)%nat -> uniform_flow g ax V v -> 0 <= dt -> Rabs (V * dt) <= hstep g ax -> euler_step (fun c => advect_general c v linear_fn lax_wendroff dt) dt c c' ->
  (forall ix, inb (gshape g) ix -> m <= get (gdata (garray c)) ix <= M) -> forall ix, inb (gshape g) ix -> m <= get (gdata (garray c')) ix <= M).
Proof.
  intros H. destruct (@lax_wendroff_uniform_step_lem lwc lwv (1 / 2) 1 0 (advance (fun c => advect_general c lwv linear_fn lax_wendroff (1 / 2)) (1 / 2) lwc) lwc_pf ltac:(cbn; lia) lwv_uniform) as ((d & Ed) & ST).
  set (c' := advance _ _ _) in *. assert (HE : euler_step (fun c => advect_general c lwv linear_fn lax_wendroff (1 / 2)) (1 / 2) lwc c').
  { unfold c', advance. rewrite Ed. exists d. split; [exact Ed|]. split; [reflexivity|]. split; [reflexivity|]. split; [apply off_eq_refl|]. split; [reflexivity|]. intros ix _. reflexivity. }
  specialize (H lwc lwv (1 / 2) 1 0%nat c' 0 1 lwc_pf ltac:(cbn; lia) lwv_uniform ltac:(lra)). cbv zeta in H. change (hstep (ggrid (garray lwc)) 0) with 1 in H.
  specialize (H ltac:(rewrite Rabs_right; lra) HE). assert (HB : forall ix, inb (gshape (ggrid (garray lwc))) ix -> 0 <= get (gdata (garray lwc)) ix <= 1) by (intros ix _; cbn [lwc garray gdata get]; destruct (_ <? _)%Z; lra).
  specialize (H HB [3]%Z ltac:(cbn; lia)). destruct (ST HE) as (_ & (_ & _ & _ & D)). rewrite D in H by (cbn; lia). change (hstep (ggrid (garray lwc)) 0) with 1 in H.
  unfold lax_wendroff_update in H. assert (E0 : pval (garray lwc) [3]%Z = 1) by reflexivity. assert (E1 : pval (garray lwc) (next 0 [3]%Z) = 0) by reflexivity. assert (E2 : pval (garray lwc) (prev 0 [3]%Z) = 1) by reflexivity. rewrite E0, E1, E2 in H. lra.
Qed.
