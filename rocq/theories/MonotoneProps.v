(** * C30: maximum principle and total variation of the advection schemes, CFL time step *)
From Coq Require Import Qreals.
From Verif Require Import Prelude NdArr Grids_model Spec Boundaries_model BoundariesPeriodic FD_model PRep FDProofs FDProps WallBC WallBCProps ImposeProps Pressure_model PressureProps Interp_model InterpProofs InterpProps UpwindProps TvdProps Advection_model AdvectionProofs AdvectionProps.
Set Implicit Arguments.
Local Open Scope Z_scope.

Lemma Rmax_neg x : (Rmax x 0 - Rmax (- x) 0 = x)%R.
Proof. unfold Rmax. destruct (Rle_dec x 0), (Rle_dec (- x) 0); lra. Qed.
Lemma upwind_flux_split U a b : ((if Rlt_dec 0 U then a else b) * U = a * Rmax U 0 - b * Rmax (- U) 0)%R.
Proof. unfold Rmax. destruct (Rlt_dec 0 U), (Rle_dec U 0), (Rle_dec (- U) 0); try lra; replace U with 0%R by lra; ring. Qed.
Lemma prev_next a ix : prev a (next a ix) = ix.
Proof. unfold prev, next. rewrite shiftix_add. apply shiftix_0. Qed.
Lemma next_prev a ix : next a (prev a ix) = ix.
Proof. unfold prev, next. rewrite shiftix_add. apply shiftix_0. Qed.

(* @prop C30 Maximum principle of upwind advection: on any periodic grid, for any velocity whose (interpolated) face values have zero net outflow from every cell, and any time step with dt * sum over axes of (outgoing speeds of the cell) / step <= 1, the advanced scalar c + dt * advect_upwind(c, v) stays within any bounds of c. *)
Lemma upwind_max_principle_lem : forall c v dt w m M, periodic_field c -> (0 < gndim (ggrid (garray c)))%nat ->
  periodic_vec (ggrid (garray c)) v -> homogeneous_vec v ->
  (forall a, (a < gndim (ggrid (garray c)))%nat -> (0 < hstep (ggrid (garray c)) a)%R) -> (0 <= dt)%R ->
  (forall ix, inb (gshape (ggrid (garray c))) ix -> outflow (ggrid (garray c)) (face_velocity c v) ix = 0%R) ->
  (forall ix, inb (gshape (ggrid (garray c))) ix ->
     (dt * nsum (gndim (ggrid (garray c))) (fun a => (Rmax (face_velocity c v a ix) 0 + Rmax (- face_velocity c v a (prev a ix)) 0)
                                    / hstep (ggrid (garray c)) a) <= 1)%R) ->
  advect_upwind c v dt = Ok w ->
  (forall ix, inb (gshape (ggrid (garray c))) ix -> (m <= get (gdata (garray c)) ix <= M)%R) ->
  forall ix, inb (gshape (ggrid (garray c))) ix ->
    (m <= get (gdata (garray c)) ix + dt * get (gdata w) ix <= M)%R.
Proof.
  intros c v dt w m M Hc Hd Hv Hh Hpos Hdt Hdiv Hcfl E Hb ix Hix.
  destruct (adv_upwind_prep dt Hc Hd Hv Hh) as (w' & E' & (_ & _ & _ & V)). rewrite E in E'. injection E' as <-.
  pose proof (pval_bounds Hc Hb) as HB. pose proof (@inb_len _ _ Hix) as HL. specialize (Hdiv ix Hix). specialize (Hcfl ix Hix).
  rewrite (V ix Hix). set (g := ggrid (garray c)) in *. set (F := pval (garray c)) in *. set (U := face_velocity c v) in *.
  assert (EF : get (gdata (garray c)) ix = F ix).
  { symmetry. apply pval_inb. destruct Hc as ((_ & Hs & _) & _). rewrite Hs. exact Hix. }
  rewrite EF.
  set (p := fun a => ((Rmax (U a ix) 0 + Rmax (- U a (prev a ix)) 0) / hstep g a)%R) in *.
  set (r := fun a => ((Rmax (- U a ix) 0 + Rmax (U a (prev a ix)) 0) / hstep g a)%R).
  set (q := fun a => ((F (next a ix) * Rmax (- U a ix) 0 + F (prev a ix) * Rmax (U a (prev a ix)) 0) / hstep g a)%R).
  assert (Eo : outflow g (fun a jx => upwind_value c v a jx * U a jx)%R ix = (F ix * nsum (gndim g) p - nsum (gndim g) q)%R).
  { rewrite <- nsum_scal, <- nsum_minus. unfold outflow. apply nsum_ext. intros a Ha. unfold upwind_value. fold F. fold U.
    rewrite !upwind_flux_split, next_prev. unfold p, q, Rdiv. ring. }
  rewrite Eo.
  assert (Er : nsum (gndim g) p = nsum (gndim g) r).
  { assert (E0 : (nsum (gndim g) p - nsum (gndim g) r = 0)%R).
    { rewrite <- nsum_minus. rewrite <- Hdiv. unfold outflow. apply nsum_ext. intros a Ha. unfold p, r, Rdiv.
      rewrite <- (Rmax_neg (U a ix)) at 3. rewrite <- (Rmax_neg (U a (prev a ix))) at 3. ring. }
    lra. }
  assert (Hmx : forall x, (0 <= Rmax x 0)%R) by (intros; apply Rmax_r).
  assert (Hql : (m * nsum (gndim g) r <= nsum (gndim g) q)%R).
  { rewrite <- nsum_scal. apply nsum_le. intros a Ha. unfold q, r, Rdiv.
    assert (0 < / hstep g a)%R by (apply Rinv_0_lt_compat, Hpos; auto).
    destruct (HB (next a ix)) as (B1 & _); [unfold next; rewrite shiftix_length; auto|].
    destruct (HB (prev a ix)) as (B2 & _); [unfold prev; rewrite shiftix_length; auto|].
    rewrite <- Rmult_assoc. apply Rmult_le_compat_r; [lra|]. rewrite Rmult_plus_distr_l. apply Rplus_le_compat; apply Rmult_le_compat_r; auto. }
  assert (Hqu : (nsum (gndim g) q <= M * nsum (gndim g) r)%R).
  { rewrite <- nsum_scal. apply nsum_le. intros a Ha. unfold q, r, Rdiv.
    assert (0 < / hstep g a)%R by (apply Rinv_0_lt_compat, Hpos; auto).
    destruct (HB (next a ix)) as (_ & B1); [unfold next; rewrite shiftix_length; auto|].
    destruct (HB (prev a ix)) as (_ & B2); [unfold prev; rewrite shiftix_length; auto|].
    rewrite <- (Rmult_assoc M). apply Rmult_le_compat_r; [lra|]. rewrite Rmult_plus_distr_l. apply Rplus_le_compat; apply Rmult_le_compat_r; auto. }
  rewrite Er in *. set (S := nsum (gndim g) r) in *. set (qq := nsum (gndim g) q) in *.
  destruct (HB ix HL) as (B1 & B2).
  assert (H1 : (0 <= (1 - dt * S) * (F ix - m))%R) by (apply Rmult_le_pos; lra).
  assert (H2 : (0 <= (1 - dt * S) * (M - F ix))%R) by (apply Rmult_le_pos; lra).
  assert (H3 : (dt * (m * S) <= dt * qq)%R) by (apply Rmult_le_compat_l; auto).
  assert (H4 : (dt * qq <= dt * (M * S))%R) by (apply Rmult_le_compat_l; auto).
  split; lra.
Qed.

(* @prop C30 stable_time_step of the advection module returns a time step for which max_velocity * dt <= max_courant * step on every axis, with equality on the finest one. *)
Lemma advection_cfl_lem : forall vm cm g dt, (0 < vm)%R -> (0 <= cm)%R -> advection_stable_time_step vm cm g = Ok dt ->
  (forall a, (a < length (gstep g))%nat -> (vm * dt <= cm * hstep g a)%R) /\
  (exists a, (a < length (gstep g))%nat /\ (vm * dt = cm * hstep g a)%R).
Proof.
  intros vm cm g dt Hv Hcm E. unfold advection_stable_time_step in E. destruct (gstep g) as [|h l] eqn:Eg; [discriminate|].
  destruct (Req_EM_T vm 0); [lra|]. injection E as <-.
  assert (Hm : forall l h, (forall x, In x (h :: l) -> fold_left Rmin l h <= x)%R /\ In (fold_left Rmin l h) (h :: l)).
  { clear. induction l as [|x l IH]; intros h; simpl.
    - split; [intros y [<-|[]]; lra | left; reflexivity].
    - destruct (IH (Rmin h x)) as (A & B). split.
      + intros y [<-|[<-|H]].
        * eapply Rle_trans; [apply A; left; reflexivity | apply Rmin_l].
        * eapply Rle_trans; [apply A; left; reflexivity | apply Rmin_r].
        * apply A. right. exact H.
      + destruct B as [B|B]; [|right; right; exact B]. rewrite <- B. unfold Rmin. destruct (Rle_dec h x); [left | right; left]; reflexivity. }
  destruct (Hm l h) as (A & B). set (dx := fold_left Rmin l h) in *.
  assert (Ev : (vm * (cm * dx / vm) = cm * dx)%R) by (field; lra). rewrite Ev.
  split.
  - intros a Ha. apply Rmult_le_compat_l; auto. apply A. unfold hstep. rewrite Eg. apply nth_In. exact Ha.
  - apply (In_nth _ _ 0%R) in B. destruct B as (a & Ha & Hx). exists a. split; [exact Ha|]. unfold hstep. rewrite Eg, Hx. reflexivity.
Qed.
(* @ex *)
Lemma advection_cfl_ex_lem : (0 < 3)%R /\ (0 <= / 2)%R /\ advection_stable_time_step 3 (/ 2) ipg = Ok (/ 2 * Rmin 1 2 / 3)%R.
Proof. split; [lra|]. split; [lra|]. unfold advection_stable_time_step. cbn [ipg gstep fold_left]. destruct (Req_EM_T 3 0); [lra | reflexivity]. Qed.

(* @prop C30 With the time step of stable_time_step and a Courant number of at most one over the number of dimensions, forward-Euler upwind advection by a staggered, discretely divergence-free velocity bounded by max_velocity creates no new extrema. *)
Lemma upwind_stable_step_lem : forall c v dt vm cm w d m M, periodic_field c -> (0 < gndim (ggrid (garray c)))%nat ->
  periodic_vec (ggrid (garray c)) v -> homogeneous_vec v -> face_aligned (goff (garray c)) v ->
  (forall a, (a < gndim (ggrid (garray c)))%nat -> (0 < hstep (ggrid (garray c)) a)%R) ->
  (0 < vm)%R -> (0 <= cm)%R -> (INR (gndim (ggrid (garray c))) * cm <= 1)%R ->
  advection_stable_time_step vm cm (ggrid (garray c)) = Ok dt ->
  (forall u ix, In u v -> inb (gshape (ggrid (garray c))) ix -> (Rabs (get (gdata (garray u)) ix) <= vm)%R) ->
  divergence v = Ok d -> (forall ix, inb (gshape (ggrid (garray c))) ix -> get (gdata d) ix = 0%R) ->
  advect_upwind c v dt = Ok w ->
  (forall ix, inb (gshape (ggrid (garray c))) ix -> (m <= get (gdata (garray c)) ix <= M)%R) ->
  forall ix, inb (gshape (ggrid (garray c))) ix ->
    (m <= get (gdata (garray c)) ix + dt * get (gdata w) ix <= M)%R.
Proof.
  intros c v dt vm cm w d m M Hc Hd Hv Hh Hf Hpos Hvm Hcm Hcd Edt Hvb Ed Hz E Hb.
  pose proof (pf_wfg Hc) as Hw. set (g := ggrid (garray c)) in *.
  destruct (divergence_spec_lem Hd Hv (pf_off Hc) Hf) as (d' & Ed' & (_ & _ & _ & Vd)). rewrite Ed in Ed'. injection Ed' as <-.
  destruct (@advection_cfl_lem _ _ _ _ Hvm Hcm Edt) as (Hcfl & (a0 & Ha0 & E0)).
  assert (Hlg : length (gstep g) = gndim g) by apply Hw.
  assert (Hdt : (0 <= dt)%R).
  { rewrite Hlg in Ha0. specialize (Hpos a0 Ha0). assert (0 <= cm * hstep g a0)%R by (apply Rmult_le_pos; lra).
    apply Rmult_le_reg_l with vm; [auto|]. lra. }
  assert (HU : forall a ix, (a < gndim g)%nat -> length ix = gndim g -> face_velocity c v a ix = vval v a ix).
  { intros a ix Ha Hix. apply (@face_velocity_aligned g c v a ix Hv); auto. }
  assert (HUb : forall a ix, (a < gndim g)%nat -> length ix = gndim g -> (- vm <= vval v a ix <= vm)%R).
  { intros a ix Ha Hix. rewrite vval_nth by (destruct Hv; lia). destruct (periodic_vec_nth Hv Ha) as (Hp & Hpg).
    pose proof (@pval_bounds (nth a v dgv) (- vm) vm Hp) as PB. rewrite Hpg in PB. apply PB; auto. intros jx Hjx.
    specialize (Hvb (nth a v dgv) jx). assert (Hin : In (nth a v dgv) v) by (apply nth_In; destruct Hv; lia).
    specialize (Hvb Hin Hjx). unfold Rabs in Hvb. destruct (Rcase_abs _); lra. }
  assert (Hdv : forall ix, inb (gshape g) ix -> outflow g (face_velocity c v) ix = 0%R).
  { intros ix Hix. rewrite <- (Hz ix Hix), (Vd ix Hix). unfold outflow. pose proof (@inb_len _ _ Hix) as HL. apply nsum_ext. intros a Ha. rewrite !HU; auto. unfold prev. rewrite shiftix_length. auto. }
  apply (@upwind_max_principle_lem c v dt w m M); auto.
  intros ix Hix. fold g. pose proof (@inb_len _ _ Hix) as HL.
  assert (Hp : (nsum (gndim g) (fun a => (Rmax (face_velocity c v a ix) 0 + Rmax (- face_velocity c v a (prev a ix)) 0) / hstep g a) =
     / 2 * nsum (gndim g) (fun a => (Rabs (vval v a ix) + Rabs (vval v a (prev a ix))) / hstep g a))%R).
  { assert (E1 : (nsum (gndim g) (fun a => (Rmax (face_velocity c v a ix) 0 + Rmax (- face_velocity c v a (prev a ix)) 0) / hstep g a) -
     / 2 * nsum (gndim g) (fun a => (Rabs (vval v a ix) + Rabs (vval v a (prev a ix))) / hstep g a) = / 2 * outflow g (face_velocity c v) ix)%R).
    { unfold outflow. rewrite <- !nsum_scal, <- nsum_minus. apply nsum_ext. intros a Ha. rewrite !HU by (auto; unfold prev; rewrite shiftix_length; auto).
      assert (Hx : forall x, (Rmax x 0 = / 2 * (x + Rabs x))%R) by (intros x; unfold Rmax, Rabs; destruct (Rle_dec x 0), (Rcase_abs x); lra).
      rewrite !Hx, Rabs_Ropp. unfold Rdiv. ring. }
    rewrite (Hdv ix Hix) in E1. lra. }
  rewrite Hp.
  assert (Hs : (dt * nsum (gndim g) (fun a => (Rabs (vval v a ix) + Rabs (vval v a (prev a ix))) / hstep g a) <= nsum (gndim g) (fun a => 2 * cm))%R).
  { rewrite <- nsum_scal. apply nsum_le. intros a Ha. specialize (Hcfl a ltac:(lia)). specialize (Hpos a Ha).
    assert (B1 := HUb a ix Ha HL). assert (B2 := HUb a (prev a ix) Ha ltac:(unfold prev; rewrite shiftix_length; auto)).
    assert (A1 : (Rabs (vval v a ix) <= vm)%R) by (apply Rabs_le; lra). assert (A2 : (Rabs (vval v a (prev a ix)) <= vm)%R) by (apply Rabs_le; lra).
    apply Rmult_le_reg_r with (hstep g a); [auto|].
    replace (dt * ((Rabs (vval v a ix) + Rabs (vval v a (prev a ix))) / hstep g a) * hstep g a)%R with (dt * (Rabs (vval v a ix) + Rabs (vval v a (prev a ix))))%R by (field; lra).
    assert (dt * (Rabs (vval v a ix) + Rabs (vval v a (prev a ix))) <= dt * (2 * vm))%R by (apply Rmult_le_compat_l; lra). lra. }
  rewrite nsum_const in Hs. lra.
Qed.

Lemma ipv_abs a ix : (a < 2)%nat -> length ix = 2%nat -> (-1 <= face_velocity ipc ipv a ix <= 1)%R.
Proof.
  intros Ha Hix. rewrite (@face_velocity_aligned ipg ipc ipv a ix ipv_pv eq_refl ipv_face Ha Hix). rewrite vval_nth by exact Ha.
  destruct a as [|[|a]]; [| |lia]; cbn [nth ipv].
  - apply (@pval_bounds ipu (-1) 1 ipu_pf); [|exact Hix]. intros jx _. cbn. destruct (nth 1 jx 0 =? 0); lra.
  - apply (@pval_bounds ipw (-1) 1 ipw_pf); [|exact Hix]. intros jx _. cbn. destruct (nth 0 jx 0 =? 1); lra.
Qed.
Lemma ipv_div ix : inb (gshape ipg) ix -> outflow ipg (face_velocity ipc ipv) ix = 0%R.
Proof.
  intros Hix. destruct advection_of_constant_ex_lem as (_ & _ & _ & _ & _ & d & Ed & Hz). rewrite <- (Hz ix Hix).
  destruct (@divergence_spec_lem ipg (goff (garray ipc)) ipv ltac:(cbn; lia) ipv_pv eq_refl ipv_face) as (d' & E' & (_ & _ & _ & V)).
  rewrite Ed in E'. injection E' as <-. rewrite (V ix Hix). pose proof (@inb_len _ _ Hix) as HL. unfold outflow. apply nsum_ext. intros a Ha.
  rewrite !(@face_velocity_aligned ipg ipc ipv) by (auto using ipv_pv, ipv_face; unfold prev; rewrite shiftix_length; auto). reflexivity.
Qed.
(* @ex *)
Lemma upwind_max_principle_ex_lem :
  periodic_field ipc /\ (0 < gndim (ggrid (garray ipc)))%nat /\ periodic_vec (ggrid (garray ipc)) ipv /\ homogeneous_vec ipv /\
  (forall a, (a < gndim (ggrid (garray ipc)))%nat -> (0 < hstep (ggrid (garray ipc)) a)%R) /\
  (forall ix, inb (gshape (ggrid (garray ipc))) ix -> outflow (ggrid (garray ipc)) (face_velocity ipc ipv) ix = 0%R) /\
  (forall ix, inb (gshape (ggrid (garray ipc))) ix ->
     (/ 4 * nsum (gndim (ggrid (garray ipc))) (fun a => (Rmax (face_velocity ipc ipv a ix) 0 + Rmax (- face_velocity ipc ipv a (prev a ix)) 0)
                                    / hstep (ggrid (garray ipc)) a) <= 1)%R) /\
  (exists w, advect_upwind ipc ipv (/ 4) = Ok w) /\
  (forall ix, inb (gshape (ggrid (garray ipc))) ix -> (0 <= get (gdata (garray ipc)) ix <= 31)%R).
Proof.
  split; [exact ipc_pf|]. split; [cbn; lia|]. split; [exact ipv_pv|]. split; [exact ipv_hom|]. split.
  { intros [|[|a]] Ha; cbn in Ha |- *; try lia; lra. }
  split; [exact ipv_div|]. split.
  { intros ix Hix. pose proof (@inb_len _ _ Hix) as HL. change (gndim (ggrid (garray ipc))) with 2%nat in *. unfold nsum. cbn [seq map lsum fold_right].
    assert (Hm : forall x, (-1 <= x <= 1)%R -> (Rmax x 0 <= 1)%R /\ (Rmax (- x) 0 <= 1)%R).
    { intros x Hx. split; apply Rmax_lub; lra. }
    assert (HP : forall a, length (prev a ix) = 2%nat) by (intros a; unfold prev; rewrite shiftix_length; auto).
    destruct (Hm _ (@ipv_abs 0%nat ix ltac:(lia) HL)) as (A1 & _). destruct (Hm _ (@ipv_abs 0%nat (prev 0 ix) ltac:(lia) (HP _))) as (_ & A2).
    destruct (Hm _ (@ipv_abs 1%nat ix ltac:(lia) HL)) as (A3 & _). destruct (Hm _ (@ipv_abs 1%nat (prev 1 ix) ltac:(lia) (HP _))) as (_ & A4).
    unfold hstep. cbn [ipc garray ggrid ipg gstep nth]. lra. }
  split.
  - destruct (@advect_upwind_flux_form_lem ipc ipv (/ 4) ipc_pf ltac:(cbn; lia) ipv_pv ipv_hom) as (w & E & _). eauto.
  - apply linear_interpolation_bounded_ex_lem.
Qed.
(* @ex *)
Lemma upwind_stable_step_ex_lem :
  face_aligned (goff (garray ipc)) ipv /\ (0 < 1)%R /\ (0 <= / 2)%R /\ (INR (gndim (ggrid (garray ipc))) * / 2 <= 1)%R /\
  (exists dt, advection_stable_time_step 1 (/ 2) (ggrid (garray ipc)) = Ok dt) /\
  (forall u ix, In u ipv -> inb (gshape (ggrid (garray ipc))) ix -> (Rabs (get (gdata (garray u)) ix) <= 1)%R) /\
  exists d, divergence ipv = Ok d /\ (forall ix, inb (gshape (ggrid (garray ipc))) ix -> get (gdata d) ix = 0%R).
Proof.
  split; [exact ipv_face|]. split; [lra|]. split; [lra|]. split; [cbn; lra|]. split.
  { unfold advection_stable_time_step. cbn [ipc garray ggrid ipg gstep fold_left]. destruct (Req_EM_T 1 0); [lra | eauto]. }
  split; [|apply advection_of_constant_ex_lem].
  intros u ix [<-|[<-|[]]] _; cbn.
  - destruct (nth 1 ix 0 =? 0); apply Rabs_le; lra.
  - destruct (nth 0 ix 0 =? 1); apply Rabs_le; lra.
Qed.

(** ** Total variation in one dimension *)
Lemma harten s ax F A : allpos s -> periodic s F -> periodic s A -> (forall ix, length ix = length s -> (0 <= A ix <= 1)%R) ->
  let G := fun ix => (F ix - A ix * (F ix - F (prev ax ix)))%R in
  (asum s (fun ix => Rabs (G (next ax ix) - G ix)) <= asum s (fun ix => Rabs (F (next ax ix) - F ix)))%R.
Proof.
  intros Hp HF HA Hb G.
  set (D := fun ix => Rabs (F (next ax ix) - F ix)).
  assert (HD : periodic s D).
  { intros ix Hix. unfold D, next. rewrite (HF ix Hix). pose proof (periodic_shift ax 1 HF ix Hix) as P. cbv beta in P. rewrite P. reflexivity. }
  assert (H1 : (asum s (fun ix => Rabs (G (next ax ix) - G ix)) <= asum s (fun ix => (D ix - A (next ax ix) * D ix) + A ix * D (prev ax ix)))%R).
  { assert (Hn : (0 <= asum s (fun ix => ((D ix - A (next ax ix) * D ix) + A ix * D (prev ax ix)) - Rabs (G (next ax ix) - G ix)))%R).
    { apply asum_nonneg. intros ix Hix. pose proof (@inb_length _ _ Hix) as HL. unfold G, D. rewrite prev_next, next_prev.
      destruct (Hb ix HL) as (B1 & B2). destruct (Hb (next ax ix)) as (B3 & B4); [unfold next; rewrite shiftix_length; auto|].
      set (x := F ix) in *. set (y := F (next ax ix)) in *. set (z := F (prev ax ix)) in *. set (a := A ix) in *. set (b := A (next ax ix)) in *.
      replace (y - b * (y - x) - (x - a * (x - z)))%R with ((1 - b) * (y - x) + a * (x - z))%R by ring.
      pose proof (Rabs_triang ((1 - b) * (y - x)) (a * (x - z))) as Ht. rewrite !Rabs_mult in Ht. rewrite (Rabs_right (1 - b)), (Rabs_right a) in Ht by lra. lra. }
    rewrite asum_minus in Hn. lra. }
  eapply Rle_trans; [exact H1|]. rewrite asum_plus, asum_minus.
  assert (H2 : asum s (fun ix => A ix * D (prev ax ix))%R = asum s (fun ix => A (next ax ix) * D ix)%R).
  { rewrite <- (@asum_shift_periodic s ax 1 (fun ix => A ix * D (prev ax ix))%R); auto.
    - apply asum_ext. intros ix _. fold (next ax ix). rewrite prev_next. reflexivity.
    - apply periodic_mult; auto. apply (@periodic_shift s ax (-1) D HD). }
  rewrite H2. unfold D. lra.
Qed.
Lemma harten_up s ax F A : allpos s -> periodic s F -> periodic s A -> (forall ix, length ix = length s -> (0 <= A ix <= 1)%R) ->
  let G := fun ix => (F ix + A ix * (F (next ax ix) - F ix))%R in
  (asum s (fun ix => Rabs (G (next ax ix) - G ix)) <= asum s (fun ix => Rabs (F (next ax ix) - F ix)))%R.
Proof.
  intros Hp HF HA Hb G.
  set (D := fun ix => Rabs (F (next ax ix) - F ix)).
  assert (HD : periodic s D).
  { intros ix Hix. unfold D, next. rewrite (HF ix Hix). pose proof (periodic_shift ax 1 HF ix Hix) as P. cbv beta in P. rewrite P. reflexivity. }
  assert (H1 : (asum s (fun ix => Rabs (G (next ax ix) - G ix)) <= asum s (fun ix => (D ix - A ix * D ix) + A (next ax ix) * D (next ax ix)))%R).
  { assert (Hn : (0 <= asum s (fun ix => ((D ix - A ix * D ix) + A (next ax ix) * D (next ax ix)) - Rabs (G (next ax ix) - G ix)))%R).
    { apply asum_nonneg. intros ix Hix. pose proof (@inb_length _ _ Hix) as HL. unfold G, D.
      destruct (Hb ix HL) as (B1 & B2). destruct (Hb (next ax ix)) as (B3 & B4); [unfold next; rewrite shiftix_length; auto|].
      set (x := F ix) in *. set (y := F (next ax ix)) in *. set (z := F (next ax (next ax ix))) in *. set (a := A ix) in *. set (b := A (next ax ix)) in *.
      replace (y + b * (z - y) - (x + a * (y - x)))%R with ((1 - a) * (y - x) + b * (z - y))%R by ring.
      pose proof (Rabs_triang ((1 - a) * (y - x)) (b * (z - y))) as Ht. rewrite !Rabs_mult in Ht. rewrite (Rabs_right (1 - a)), (Rabs_right b) in Ht by lra. lra. }
    rewrite asum_minus in Hn. lra. }
  eapply Rle_trans; [exact H1|]. rewrite asum_plus, asum_minus.
  assert (H2 : asum s (fun ix => A (next ax ix) * D (next ax ix))%R = asum s (fun ix => A ix * D ix)%R).
  { apply (@asum_shift_periodic s ax 1 (fun ix => A ix * D ix)%R); auto. apply periodic_mult; auto. }
  rewrite H2. unfold D. lra.
Qed.

(** phi(x / y) y is a multiple between 0 and 2 of x. *)
Lemma sweby_ratio phi x y : sweby_limiter phi -> exists q, (0 <= q <= 2)%R /\ (phi (safe_div x y) * y = q * x)%R /\
  q = (if Req_EM_T x 0 then 0 else phi (safe_div x y) * y / x)%R.
Proof.
  intros Hs. destruct (Req_EM_T x 0) as [->|Hx].
  - exists 0%R. split; [lra|]. split; [|reflexivity]. assert (safe_div 0 y = 0%R) as -> by (unfold safe_div, Rdiv; ring).
    destruct (Hs 0%R) as (_ & _ & H). rewrite H by lra. ring.
  - exists (phi (safe_div x y) * y / x)%R. split; [|split; [field; auto | reflexivity]].
    unfold safe_div. destruct (Req_EM_T y 0) as [->|Hy]; [unfold Rdiv; rewrite Rmult_0_r; lra|].
    destruct (Hs (x / y)%R) as ((H1 & H2) & H3 & H4).
    destruct (Rle_or_lt (x / y) 0) as [Hr|Hr]; [rewrite H4 by auto; unfold Rdiv; lra|]. destruct H3 as [H3|H3]; [|lra].
    replace (phi (x / y) * y / x)%R with (phi (x / y) * / (x / y))%R by (field; auto).
    assert (0 < / (x / y))%R by (apply Rinv_0_lt_compat; auto). split; [apply Rmult_le_pos; lra|].
    apply Rle_trans with (2 * (x / y) * / (x / y))%R; [apply Rmult_le_compat_r; lra|]. rewrite Rmult_assoc, Rinv_r by lra. lra.
Qed.

Lemma nsum_1 f : nsum 1 f = f 0%nat.
Proof. unfold nsum. cbn. ring. Qed.
Lemma tv_1d u : gndim (ggrid u) = 1%nat -> total_variation u = asum (gshape (ggrid u)) (fun ix => Rabs (pval u (next 0 ix) - pval u ix)).
Proof. intros H. unfold total_variation. apply asum_ext. intros ix _. rewrite H. apply nsum_1. Qed.

Section Tv.
Variables (phi : R -> R) (c u : gvar) (U dt : R).
Let g := ggrid (garray c).
Let F := pval (garray c).
Hypothesis (Hphi : sweby_limiter phi) (Hc : periodic_field c) (H1 : gndim g = 1%nat)
  (Hu : periodic_field u) (Hg : ggrid (garray u) = g) (HU : constant_field u U)
  (Hh : (0 < hstep g 0)%R) (Hdt : (0 <= dt)%R) (Hcfl : (Rabs U * dt <= hstep g 0)%R).

Lemma fv_const ix : length ix = gndim g -> face_velocity c [u] 0 ix = U.
Proof.
  intros Hix. unfold face_velocity. cbn [nth_error]. fold g.
  pose proof (@lerp_bounds (gshape g) (gndim g) (goff (garray u)) (offs 0 (1 # 2) (goff (garray c))) (pval (garray u)) U U) as B.
  assert (HB : forall ix0, length ix0 = length (gshape g) -> (U <= pval (garray u) ix0 <= U)%R).
  { intros jx Hjx. rewrite (@constant_pval u U jx Hu HU); [lra|]. rewrite Hg. exact Hjx. }
  specialize (B HB ix Hix). lra.
Qed.

Lemma tv_core w c' : prep g (goff (garray c)) (fun ix => - outflow g (fun a jx => limited_value phi c [u] dt a jx * face_velocity c [u] a jx) ix)%R w ->
  is_field c' g (goff (garray c)) (fun ix => get (gdata (garray c)) ix + dt * get (gdata w) ix)%R ->
  (total_variation c' <= total_variation (garray c))%R.
Proof.
  intros (_ & _ & _ & V) Hc'. pose proof (pf_wfg Hc) as Hw. fold g in Hw. pose proof (pf_per Hc) as PF. fold g F in PF.
  assert (Hap : allpos (gshape g)) by apply Hw.
  set (h := hstep g 0) in *. set (D := fun ix => (F (next 0 ix) - F ix)%R).
  assert (PD : periodic (gshape g) D).
  { intros ix Hix. unfold D, next. rewrite (PF ix Hix). pose proof (periodic_shift 0 1 PF ix Hix) as P. cbv beta in P. rewrite P. reflexivity. }
  assert (Ec : forall ix, inb (gshape g) ix -> get (gdata (garray c)) ix = F ix).
  { intros ix Hix. symmetry. apply pval_inb. destruct Hc as ((_ & Hs & _) & _). rewrite Hs. exact Hix. }
  assert (Hfin : forall G, periodic (gshape g) G -> (forall ix, inb (gshape g) ix -> (F ix + dt * get (gdata w) ix = G ix)%R) ->
     (asum (gshape g) (fun ix => Rabs (G (next 0 ix) - G ix)) <= asum (gshape g) (fun ix => Rabs (F (next 0 ix) - F ix)))%R ->
     (total_variation c' <= total_variation (garray c))%R).
  { intros G PG HG Hle.
    assert (Pc' : prep g (goff (garray c)) G c').
    { eapply prep_ext; [|exact Hc']. intros ix Hix. cbv beta. rewrite Ec by auto. apply HG; auto. }
    assert (Gc' : ggrid c' = g) by (destruct Hc' as (X & _); exact X).
    rewrite (tv_1d (garray c)) by exact H1. rewrite (tv_1d c') by (rewrite Gc'; exact H1). rewrite Gc'.
    rewrite (@asum_ext (gshape g) _ (fun ix => Rabs (G (next 0 ix) - G ix))).
    - exact Hle.
    - intros ix Hix. pose proof (@inb_length _ _ Hix) as HL. rewrite !(@pval_prep g (goff (garray c)) G c') by (auto; unfold next; rewrite shiftix_length; auto). reflexivity. }
  assert (Hcfl' : (- h <= U * dt <= h)%R).
  { assert (Ha : (Rabs (U * dt) <= h)%R) by (rewrite Rabs_mult, (Rabs_right dt) by lra; auto). unfold Rabs in Ha. destruct (Rcase_abs (U * dt)); lra. }
  set (nu := (dt * U / h)%R).
  assert (Hnu : (-1 <= nu <= 1)%R).
  { unfold nu, Rdiv. split; apply Rmult_le_reg_r with h; auto; rewrite Rmult_assoc, Rinv_l by lra; lra. }
  assert (Hw0 : forall ix, inb (gshape g) ix -> get (gdata w) ix = (- ((limited_value phi c [u] dt 0 ix - limited_value phi c [u] dt 0 (prev 0 ix)) * U / h))%R).
  { intros ix Hix. pose proof (@inb_length _ _ Hix) as HL. rewrite (V ix Hix). unfold outflow. rewrite H1, nsum_1. fold h.
    rewrite !fv_const by (auto; unfold prev; rewrite shiftix_length; auto). unfold Rdiv. ring. }
  destruct (Rlt_dec 0 U) as [HUp|HUn].
  - assert (Hnu0 : (0 <= nu)%R) by (unfold nu, Rdiv; apply Rmult_le_pos; [apply Rmult_le_pos; lra|]; apply Rlt_le, Rinv_0_lt_compat; auto).
    assert (HL : forall ix, length ix = gndim g -> limited_value phi c [u] dt 0 ix = (F ix + / 2 * (1 - nu) * (phi (safe_div (D (prev 0 ix)) (D ix)) * D ix))%R).
    { intros ix Hix. unfold limited_value. cbv zeta. rewrite fv_const by auto. destruct (Rlt_dec 0 U); [|lra]. fold F g h.
      unfold D. rewrite next_prev. unfold nu. ring. }
    set (q := fun ix => (if Req_EM_T (D (prev 0 ix)) 0 then 0 else phi (safe_div (D (prev 0 ix)) (D ix)) * D ix / D (prev 0 ix))%R).
    set (ph := fun ix => phi (safe_div (D (prev 0 ix)) (D ix))).
    assert (Hq : forall ix, (0 <= q ix <= 2)%R /\ (ph ix * D ix = q ix * D (prev 0 ix))%R).
    { intros ix. destruct (@sweby_ratio phi (D (prev 0 ix)) (D ix) Hphi) as (q0 & B & E & Eq). unfold q. rewrite <- Eq. split; [exact B | exact E]. }
    set (A := fun ix => (nu * (1 + / 2 * (1 - nu) * (q ix - ph (prev 0 ix))))%R).
    assert (Pp : forall f : list Z -> R, periodic (gshape g) f -> forall ix, length ix = length (gshape g) -> f (prev 0 (wrap (gshape g) ix)) = f (prev 0 ix)).
    { intros f Pf ix Hix. exact (periodic_shift 0 (-1) Pf ix Hix). }
    assert (Pph : periodic (gshape g) ph).
    { intros ix Hix. unfold ph. rewrite (PD ix Hix), (Pp D PD ix Hix). reflexivity. }
    assert (PA : periodic (gshape g) A).
    { intros ix Hix. unfold A, q. rewrite (Pp ph Pph ix Hix), (Pp D PD ix Hix), (PD ix Hix). reflexivity. }
    apply (Hfin (fun ix => F ix - A ix * (F ix - F (prev 0 ix)))%R).
    + intros ix Hix. rewrite (PA ix Hix), (PF ix Hix), (Pp F PF ix Hix). reflexivity.
    + intros ix Hix. pose proof (@inb_length _ _ Hix) as HLx. rewrite (Hw0 ix Hix), !HL by (auto; unfold prev; rewrite shiftix_length; auto).
      destruct (Hq ix) as (_ & E1). fold (ph ix). fold (ph (prev 0 ix)). rewrite E1.
      assert (ED : D (prev 0 ix) = (F ix - F (prev 0 ix))%R) by (unfold D; rewrite next_prev; reflexivity). rewrite ED.
      unfold A. replace (dt * - ((F ix + / 2 * (1 - nu) * (q ix * (F ix - F (prev 0 ix))) - (F (prev 0 ix) + / 2 * (1 - nu) * (ph (prev 0 ix) * (F ix - F (prev 0 ix))))) * U / h))%R
        with (- nu * ((F ix + / 2 * (1 - nu) * (q ix * (F ix - F (prev 0 ix))) - (F (prev 0 ix) + / 2 * (1 - nu) * (ph (prev 0 ix) * (F ix - F (prev 0 ix)))))))%R by (unfold nu, Rdiv; ring).
      ring.
    + apply (@harten (gshape g) 0 F A); auto. intros ix Hix. unfold A. destruct (Hq ix) as ((Q1 & Q2) & _). destruct (Hphi (safe_div (D (prev 0 (prev 0 ix))) (D (prev 0 ix)))) as ((P1 & P2) & _).
      fold (ph (prev 0 ix)) in P1, P2.
      assert (X : (-1 * (1 - nu) <= / 2 * (1 - nu) * (q ix - ph (prev 0 ix)) <= 1 * (1 - nu))%R).
      { replace (/ 2 * (1 - nu) * (q ix - ph (prev 0 ix)))%R with ((q ix - ph (prev 0 ix)) / 2 * (1 - nu))%R by (unfold Rdiv; ring). split; apply Rmult_le_compat_r; lra. }
      split.
      * apply Rmult_le_pos; lra.
      * apply Rle_trans with (nu * (2 - nu))%R; [apply Rmult_le_compat_l; lra|]. assert (0 <= (1 - nu) * (1 - nu))%R by (apply Rmult_le_pos; lra). lra.
  - set (mu := (- nu)%R).
    assert (Hmu0 : (0 <= mu)%R).
    { unfold mu, nu, Rdiv. replace (- (dt * U * / h))%R with (dt * - U * / h)%R by ring. apply Rmult_le_pos; [apply Rmult_le_pos; lra|]; apply Rlt_le, Rinv_0_lt_compat; auto. }
    assert (HL : forall ix, length ix = gndim g -> limited_value phi c [u] dt 0 ix = (F (next 0 ix) - / 2 * (1 - mu) * (phi (safe_div (D (next 0 ix)) (D ix)) * D ix))%R).
    { intros ix Hix. unfold limited_value. cbv zeta. rewrite fv_const by auto. destruct (Rlt_dec 0 U); [lra|]. fold F g h.
      assert (E2 : D (next 0 ix) = (F (shiftix 0 2 ix) - F (next 0 ix))%R) by (unfold D, next; rewrite shiftix_add; reflexivity).
      rewrite E2. unfold D. unfold mu, nu. ring. }
    set (q := fun ix => (if Req_EM_T (D ix) 0 then 0 else phi (safe_div (D ix) (D (prev 0 ix))) * D (prev 0 ix) / D ix)%R).
    set (ph := fun ix => phi (safe_div (D (next 0 ix)) (D ix))).
    assert (Hq : forall ix, (0 <= q ix <= 2)%R /\ (ph (prev 0 ix) * D (prev 0 ix) = q ix * D ix)%R).
    { intros ix. destruct (@sweby_ratio phi (D ix) (D (prev 0 ix)) Hphi) as (q0 & B & E & Eq). unfold q. rewrite <- Eq. split; [exact B|]. unfold ph. rewrite next_prev. exact E. }
    set (A := fun ix => (mu * (1 - / 2 * (1 - mu) * (ph ix - q ix)))%R).
    assert (Pp : forall k f, periodic (gshape g) f -> forall ix, length ix = length (gshape g) -> f (shiftix 0 k (wrap (gshape g) ix)) = f (shiftix 0 k ix)).
    { intros k f Pf ix Hix. exact (periodic_shift 0 k Pf ix Hix). }
    assert (PA : periodic (gshape g) A).
    { intros ix Hix. unfold A, q, ph, next, prev. rewrite !(Pp _ D PD ix Hix), (PD ix Hix). reflexivity. }
    apply (Hfin (fun ix => F ix + A ix * (F (next 0 ix) - F ix))%R).
    + intros ix Hix. unfold next. rewrite (PA ix Hix), (PF ix Hix), (Pp 1 F PF ix Hix). reflexivity.
    + intros ix Hix. pose proof (@inb_length _ _ Hix) as HLx. rewrite (Hw0 ix Hix), !HL by (auto; unfold prev; rewrite shiftix_length; auto).
      destruct (Hq ix) as (_ & E1). fold (ph ix). fold (ph (prev 0 ix)). rewrite E1, next_prev.
      unfold A. replace (dt * - ((F (next 0 ix) - / 2 * (1 - mu) * (ph ix * D ix) - (F ix - / 2 * (1 - mu) * (q ix * D ix))) * U / h))%R
        with (mu * ((F (next 0 ix) - / 2 * (1 - mu) * (ph ix * D ix) - (F ix - / 2 * (1 - mu) * (q ix * D ix)))))%R by (unfold mu, nu, Rdiv; ring).
      unfold D. ring.
    + apply (@harten_up (gshape g) 0 F A); auto. intros ix Hix. unfold A. destruct (Hq ix) as ((Q1 & Q2) & _). destruct (Hphi (safe_div (D (next 0 ix)) (D ix))) as ((P1 & P2) & _).
      fold (ph ix) in P1, P2. assert (mu <= 1)%R by (unfold mu; lra).
      assert (X : (-1 * (1 - mu) <= / 2 * (1 - mu) * (ph ix - q ix) <= 1 * (1 - mu))%R).
      { replace (/ 2 * (1 - mu) * (ph ix - q ix))%R with ((ph ix - q ix) / 2 * (1 - mu))%R by (unfold Rdiv; ring). split; apply Rmult_le_compat_r; lra. }
      split.
      * apply Rmult_le_pos; lra.
      * apply Rle_trans with (mu * (2 - mu))%R; [apply Rmult_le_compat_l; lra|]. assert (0 <= (1 - mu) * (1 - mu))%R by (apply Rmult_le_pos; lra). lra.
Qed.
End Tv.

(* @prop C30 In one dimension, with a constant velocity U of either sign and |U| dt <= step, one forward-Euler step of advection limited by any limiter in Sweby's region (0 <= phi <= min(2, 2r), phi = 0 for r <= 0) does not increase the total variation of a periodic scalar. *)
Lemma limited_advection_tvd_lem : forall phi c u U dt w c', sweby_limiter phi -> periodic_field c -> gndim (ggrid (garray c)) = 1%nat ->
  periodic_field u -> ggrid (garray u) = ggrid (garray c) -> bhom (gbc u) = true -> constant_field u U ->
  (0 < hstep (ggrid (garray c)) 0)%R -> (0 <= dt)%R -> (Rabs U * dt <= hstep (ggrid (garray c)) 0)%R ->
  advect_general c [u] linear_fn (apply_tvd_limiter lax_wendroff phi) dt = Ok w ->
  is_field c' (ggrid (garray c)) (goff (garray c)) (fun ix => get (gdata (garray c)) ix + dt * get (gdata w) ix)%R ->
  (total_variation c' <= total_variation (garray c))%R.
Proof.
  intros phi c u U dt w c' Hphi Hc H1 Hu Hg Hb HU Hh Hdt Hcfl E Hc'.
  assert (Hv : periodic_vec (ggrid (garray c)) [u]) by (split; [rewrite H1; reflexivity | repeat constructor; auto; apply Hu]).
  destruct (@adv_limited_prep c [u] dt Hc ltac:(lia) Hv ltac:(repeat constructor; auto) phi) as (w' & E' & P). rewrite E in E'. injection E' as <-.
  eapply tv_core; eauto.
Qed.

Lemma van_leer_sweby : sweby_limiter van_leer_limiter.
Proof.
  intros r. destruct (van_leer_limiter_bounds_lem r) as (A & B & C & _). split; [lra|]. split; [|exact B].
  destruct (Rle_or_lt r 0); [right; auto|]. left. apply C. auto.
Qed.

(* @prop C30 The same for van Leer limited advection (advect_van_leer_using_limiters) and for upwind advection. *)
Lemma van_leer_and_upwind_tvd_lem : forall c u U dt w c', periodic_field c -> gndim (ggrid (garray c)) = 1%nat ->
  periodic_field u -> ggrid (garray u) = ggrid (garray c) -> bhom (gbc u) = true -> constant_field u U ->
  (0 < hstep (ggrid (garray c)) 0)%R -> (0 <= dt)%R -> (Rabs U * dt <= hstep (ggrid (garray c)) 0)%R ->
  advect_van_leer_using_limiters c [u] dt = Ok w \/ advect_upwind c [u] dt = Ok w ->
  is_field c' (ggrid (garray c)) (goff (garray c)) (fun ix => get (gdata (garray c)) ix + dt * get (gdata w) ix)%R ->
  (total_variation c' <= total_variation (garray c))%R.
Proof.
  intros c u U dt w c' Hc H1 Hu Hg Hb HU Hh Hdt Hcfl [E|E] Hc'.
  - eapply (limited_advection_tvd_lem van_leer_sweby Hc H1 Hu Hg Hb HU Hh Hdt Hcfl); eauto.
  - assert (Hv : periodic_vec (ggrid (garray c)) [u]) by (split; [rewrite H1; reflexivity | repeat constructor; auto; apply Hu]).
    destruct (@adv_upwind_prep c [u] dt Hc ltac:(lia) Hv ltac:(repeat constructor; auto)) as (w' & E' & P). rewrite E in E'. injection E' as <-.
    apply (@tv_core (fun _ => 0%R) c u U dt) with (w := w); auto.
    + intros r. split; [lra|]. split; [|auto]. destruct (Rle_or_lt r 0); [right; lra | left; lra].
    + eapply prep_ext; [|exact P]. intros ix Hix. cbv beta. apply (f_equal Ropp). apply outflow_ext; [apply inb_len; auto|]. intros a jx Ha Hjx.
      f_equal. unfold upwind_value, limited_value. cbv zeta. destruct (Rlt_dec _ _); ring.
Qed.
Definition tvg : grid := mkgrid [5%nat] [1%R] [(0%R, 5%R)].
Definition tvc : gvar := mkgv (mkga (mkarr [5%nat] (fun ix => if (nth 0%nat ix 0 =? 2) then 4%R else if (nth 0%nat ix 0 =? 3) then 1%R else 0%R)) [(1 # 2)%Q] tvg) (periodic_bc 1).
Definition tvu : gvar := mkgv (mkga (mkarr [5%nat] (fun ix => (-1/2)%R)) [1%Q] tvg) (periodic_bc 1).
Lemma tvg_wf : wfg tvg. Proof. repeat split; repeat constructor; (lia || lra). Qed.
Lemma tvc_pf : periodic_field tvc.
Proof. split; [split; [exact tvg_wf|]; split; reflexivity | reflexivity]. Qed.
Lemma tvu_pf : periodic_field tvu.
Proof. split; [split; [exact tvg_wf|]; split; reflexivity | reflexivity]. Qed.
(* @ex *)
Lemma limited_advection_tvd_ex_lem :
  sweby_limiter van_leer_limiter /\ periodic_field tvc /\ gndim (ggrid (garray tvc)) = 1%nat /\ periodic_field tvu /\
  ggrid (garray tvu) = ggrid (garray tvc) /\ bhom (gbc tvu) = true /\ constant_field tvu (-1/2) /\
  (0 < hstep (ggrid (garray tvc)) 0)%R /\ (Rabs (-1/2) * 2 <= hstep (ggrid (garray tvc)) 0)%R /\
  exists w, advect_van_leer_using_limiters tvc [tvu] 2 = Ok w.
Proof.
  split; [exact van_leer_sweby|]. split; [exact tvc_pf|]. split; [reflexivity|]. split; [exact tvu_pf|]. split; [reflexivity|]. split; [reflexivity|].
  split; [intros ix _; reflexivity|]. split; [cbn; lra|]. split; [cbn; rewrite Rabs_left by lra; lra|].
  assert (Hv : periodic_vec tvg [tvu]) by (split; [reflexivity|]; apply Forall_cons; [split; [exact tvu_pf | reflexivity] | constructor]).
  destruct (@advect_limited_flux_form_lem van_leer_limiter tvc [tvu] 2 tvc_pf ltac:(cbn; lia) Hv ltac:(repeat constructor)) as (w & E & _). eauto.
Qed.
(* @ex *)
Lemma van_leer_and_upwind_tvd_ex_lem : exists w, advect_upwind tvc [tvu] 2 = Ok w /\ total_variation (garray tvc) = 8%R.
Proof.
  assert (Hv : periodic_vec tvg [tvu]) by (split; [reflexivity|]; apply Forall_cons; [split; [exact tvu_pf | reflexivity] | constructor]).
  destruct (@advect_upwind_flux_form_lem tvc [tvu] 2 tvc_pf ltac:(cbn; lia) Hv ltac:(repeat constructor)) as (w & E & _). exists w. split; [exact E|].
  rewrite tv_1d by reflexivity. unfold pval, next, shiftix. cbn. unfold Rabs. repeat destruct (Rcase_abs _); lra.
Qed.
