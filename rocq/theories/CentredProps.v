(** * C87: centred advection of a scalar in an incompressible flow, step by step *)
From Verif Require Import Prelude NdArr Grids_model Spec Boundaries_model BoundariesPeriodic FD_model Interp_model Advection_model PRep FDProofs FDProps InterpProps AdvectionProofs AdvectionProps ConvectProps MonotoneProps Pressure_model TimeStep_model TimeStepProps SpecAcc AccuracyProps SpecConv ConvergeProps SpecSkew SkewProps.
Set Implicit Arguments.
Local Open Scope R_scope.

Lemma cell_inner g : inner_product (cell_product g).
Proof.
  unfold cell_product. split; [|split; [|split]].
  - intros u v. apply asum_ext. intros; ring.
  - intros u v w. rewrite <- asum_plus. apply asum_ext. intros; unfold vadd; ring.
  - intros c u w. rewrite <- asum_scal. apply asum_ext. intros; unfold vscal; ring.
  - intros u. apply asum_nonneg. intros ix _. apply Rle_0_sqr.
Qed.
Lemma id_projection X (ip : vec X -> vec X -> R) : orthogonal_projection ip (fun u => u).
Proof. split; [split; reflexivity|]. split; reflexivity. Qed.
(** Cauchy-Schwarz with weights. *)
Lemma weighted_cs d (w x : nat -> R) : (forall a, (a < d)%nat -> 0 <= w a) -> (nsum d (fun a => w a * x a)) ^ 2 <= nsum d w * nsum d (fun a => w a * x a ^ 2).
Proof.
  induction d as [|d IH]; intros Hw; [rewrite !nsum_0; lra|]. rewrite !nsum_S. specialize (IH ltac:(intros a Ha; apply Hw; lia)).
  set (S := nsum d (fun a => w a * x a)) in *. set (W := nsum d w) in *. set (B := nsum d (fun a => w a * x a ^ 2)) in *. pose proof (Hw d ltac:(lia)) as Hd. set (wd := w d) in *. set (xd := x d) in *.
  assert (HW : 0 <= W) by (apply nsum_nonneg; intros; apply Hw; lia). assert (HB : 0 <= B) by (apply nsum_nonneg; intros a Ha; apply Rmult_le_pos; [apply Hw; lia | apply pow2_ge_0]).
  assert (K : 2 * (S * xd) <= W * xd ^ 2 + B).
  { apply Rle_trans with (Rabs (2 * (S * xd))); [apply Rle_abs|]. apply Rsqr_incr_0_var; [|pose proof (pow2_ge_0 xd); pose proof (Rmult_le_pos W (xd ^ 2) HW ltac:(assumption)); lra].
    rewrite <- Rsqr_abs. unfold Rsqr. pose proof (pow2_ge_0 (W * xd ^ 2 - B)) as Q. pose proof (pow2_ge_0 xd) as Q2. pose proof (Rmult_le_compat_r (4 * xd ^ 2) _ _ ltac:(lra) IH) as M.
    replace (2 * (S * xd) * (2 * (S * xd))) with (S ^ 2 * (4 * xd ^ 2)) by ring. replace ((W * xd ^ 2 + B) * (W * xd ^ 2 + B)) with ((W * xd ^ 2 - B) ^ 2 + W * B * (4 * xd ^ 2)) by ring. lra. }
  apply (Rmult_le_compat_l wd) in K; [|exact Hd]. replace ((S + wd * xd) ^ 2) with (S ^ 2 + wd * (2 * (S * xd)) + wd * xd * (wd * xd)) by ring. replace ((W + wd) * (B + wd * xd ^ 2)) with (W * B + wd * (W * xd ^ 2 + B) + wd * xd * (wd * xd)) by ring. lra.
Qed.

Section Cen.
Variables (c : gvar) (v : list gvar) (adt : R) (d : garr).
Let g := ggrid (garray c).
Let s := gshape g.
Let T := tendency c (fun c => advect_linear c v adt).
Hypothesis (Hc : periodic_field c) (Hd : (0 < gndim g)%nat) (Hv : periodic_vec g v) (Hh : homogeneous_vec v) (Hf : face_aligned (goff (garray c)) v)
  (Ed : divergence v = Ok d) (Hz : forall ix, inb s ix -> get (gdata d) ix = 0).
Let ext (u : vec (list Z)) (ix : list Z) : R := u (wrap s ix).
Lemma state_pf u : periodic_field (state_var c u).
Proof. destruct Hc as ((A & _ & B) & C). split; [split; [exact A | split; [reflexivity | exact B]] | exact C]. Qed.
Lemma ten_value u ix : T u ix = if inbb s ix then - outflow g (fun a jx => avg a (ext u) jx * vval v a jx) ix else 0.
Proof.
  unfold T, tendency. fold g s. destruct (inbb s ix) eqn:E; [|reflexivity]. apply inbb_spec in E. destruct (@advect_linear_flux_form_lem (state_var c u) v adt (state_pf u) Hd Hv Hh) as (w & Ew & (_ & _ & _ & V)). rewrite Ew. rewrite V by exact E.
  f_equal. apply outflow_ext; [apply inb_len; exact E|]. intros a jx Ha Hjx. change (ggrid (garray (state_var c u))) with g in *. rewrite (@face_velocity_aligned g (state_var c u) v a jx Hv) by auto. f_equal.
  change (goff (garray (state_var c u))) with (goff (garray c)). rewrite (@lerp_half (gshape g) _ _ _ a) by (auto using off_eq_refl; rewrite (pf_off Hc); auto). replace (a <? gndim g)%nat with true by (symmetry; apply Nat.ltb_lt; exact Ha). reflexivity.
Qed.
Lemma ten_linear : is_linear T.
Proof.
  split; intros; apply vec_ext; intros ix; unfold vadd, vscal; rewrite !ten_value; destruct (inbb s ix); try ring.
  - unfold outflow. rewrite <- Ropp_plus_distr, <- nsum_plus. f_equal. apply nsum_ext. intros a Ha. unfold avg, ext. unfold Rdiv. ring.
  - unfold outflow. rewrite Ropp_mult_distr_r_reverse, <- nsum_scal. f_equal. apply nsum_ext. intros a Ha. unfold avg, ext. unfold Rdiv. ring.
Qed.
Lemma ten_skew u : cell_product g (T u) u = 0.
Proof.
  destruct (@advect_linear_flux_form_lem (state_var c u) v adt (state_pf u) Hd Hv Hh) as (w & Ew & _). pose proof (@linear_advection_energy_lem (state_var c u) v adt w d (state_pf u) Hd Hv Hh Hf Ew Ed) as E. cbv zeta in E. change (ggrid (garray (state_var c u))) with g in E.
  unfold cell_product. rewrite (@asum_ext (gshape g) _ (fun ix => get (gdata (garray (state_var c u))) ix * get (gdata w) ix)).
  - rewrite E. rewrite (@asum_ext (gshape g) _ (fun _ => 0)); [rewrite asum_0; lra|]. intros ix Hix. rewrite (Hz ix Hix). ring.
  - intros ix Hix. unfold T, tendency. fold g. rewrite (proj2 (inbb_spec (gshape g) ix) Hix), Ew. cbn [state_var garray gdata get]. ring.
Qed.
Variables (vm : R).
Hypothesis (Hpos : forall a, (a < gndim g)%nat -> 0 < hstep g a) (Hvm : 0 <= vm) (Hvb : forall u ix, In u v -> inb s ix -> Rabs (get (gdata (garray u)) ix) <= vm).
Lemma vval_bound a ix : (a < gndim g)%nat -> length ix = gndim g -> Rabs (vval v a ix) <= vm.
Proof.
  intros Ha Hix. rewrite vval_nth by (destruct Hv; lia). destruct (periodic_vec_nth Hv Ha) as (Hp & Hpg). unfold pval. destruct Hp as ((Hw & Hs & _) & _). rewrite Hs, Hpg. apply Hvb; [apply nth_In; destruct Hv; lia|]. apply inb_wrap; [|exact Hix]. rewrite Hpg in Hw. apply Hw.
Qed.
Lemma ten_bound u : cell_product g (T u) (T u) <= (nsum (gndim g) (fun a => vm / hstep g a)) ^ 2 * cell_product g u u.
Proof.
  set (W := nsum (gndim g) (fun a => vm / hstep g a)). assert (Hs : allpos s) by apply (pf_wfg Hc).
  assert (Hw0 : forall a, (a < gndim g)%nat -> 0 <= vm / hstep g a) by (intros a Ha; apply Rle_mult_inv_pos; [exact Hvm | apply Hpos; exact Ha]). assert (HW : 0 <= W) by (apply nsum_nonneg; exact Hw0).
  assert (PE : periodic s (ext u)) by (intros ix Hix; unfold ext; rewrite wrap_inb by (apply inb_wrap; assumption); reflexivity).
  destruct (divergence_spec_lem Hd Hv (pf_off Hc) Hf) as (d' & Ed' & (_ & _ & _ & Vd)). rewrite Ed in Ed'. apply ok_inj in Ed'. subst d'.
  unfold cell_product. apply Rle_trans with (asum s (fun ix => W * nsum (gndim g) (fun a => vm / hstep g a * ((ext u (next a ix) ^ 2 + ext u (prev a ix) ^ 2) / 2)))).
  - apply asum_le. intros ix Hix. pose proof (inb_len g ix Hix) as L. rewrite ten_value, (proj2 (inbb_spec s ix) Hix). specialize (Vd ix Hix). pose proof (Hz ix Hix) as Hz0.
    assert (EO : - outflow g (fun a jx => avg a (ext u) jx * vval v a jx) ix = - nsum (gndim g) (fun a => (ext u (next a ix) * vval v a ix - ext u (prev a ix) * vval v a (prev a ix)) / (2 * hstep g a))).
    { f_equal. assert (E0 : nsum (gndim g) (fun a => (vval v a ix - vval v a (prev a ix)) / hstep g a) = 0) by (rewrite <- Hz0, Vd; reflexivity).
      rewrite <- (Rplus_0_r (nsum (gndim g) (fun a => (ext u (next a ix) * _ - _) / _))). rewrite <- (Rmult_0_r (ext u ix / 2)), <- E0, <- nsum_scal, <- nsum_plus. unfold outflow. apply nsum_ext. intros a Ha. pose proof (Hpos Ha) as Hpa. unfold avg.
      assert (En : next a (prev a ix) = ix) by (unfold next, prev; rewrite shiftix_add; change (1 + -1)%Z with 0%Z; apply shiftix_0). rewrite En. field. lra. }
    rewrite EO. set (Y := nsum (gndim g) _). assert (HY : Rabs Y <= nsum (gndim g) (fun a => vm / hstep g a * ((Rabs (ext u (next a ix)) + Rabs (ext u (prev a ix))) / 2))).
    { unfold Y. eapply Rle_trans; [apply nsum_abs|]. apply nsum_le. intros a Ha. pose proof (Hpos Ha) as Hpa. unfold Rdiv at 1. rewrite Rabs_mult, Rabs_inv, (Rabs_right (2 * hstep g a)) by lra.
      assert (LP : length (prev a ix) = gndim g) by (unfold prev; rewrite shiftix_length; exact L). pose proof (@vval_bound a ix Ha L) as V1. pose proof (@vval_bound a _ Ha LP) as V2.
      apply Rle_trans with ((Rabs (ext u (next a ix)) * vm + Rabs (ext u (prev a ix)) * vm) * / (2 * hstep g a)); [|apply Req_le; field; lra]. apply Rmult_le_compat_r; [left; apply Rinv_0_lt_compat; lra|].
      unfold Rminus. eapply Rle_trans; [apply Rabs_triang|]. rewrite Rabs_Ropp, !Rabs_mult. apply Rplus_le_compat; apply Rmult_le_compat_l; try assumption; apply Rabs_pos. }
    replace (- Y * - Y) with (Rabs Y ^ 2) by (rewrite pow2_abs; ring).
    set (xs := fun a => (Rabs (ext u (next a ix)) + Rabs (ext u (prev a ix))) / 2). change (Rabs Y <= nsum (gndim g) (fun a => vm / hstep g a * xs a)) in HY. assert (Hx0 : 0 <= nsum (gndim g) (fun a => vm / hstep g a * xs a)) by (pose proof (Rabs_pos Y); lra).
    apply Rle_trans with (nsum (gndim g) (fun a => vm / hstep g a * xs a) ^ 2); [pose proof (Rabs_pos Y); apply pow_incr; lra|].
    eapply Rle_trans; [apply (@weighted_cs (gndim g) (fun a => vm / hstep g a) xs Hw0)|]. fold W. apply Rmult_le_compat_l; [exact HW|]. apply nsum_le. intros a Ha. apply Rmult_le_compat_l; [apply Hw0; exact Ha|]. unfold xs.
    rewrite <- (pow2_abs (ext u (next a ix))), <- (pow2_abs (ext u (prev a ix))). set (p := Rabs (ext u (next a ix))). set (q := Rabs (ext u (prev a ix))). pose proof (pow2_ge_0 (p - q)). replace (((p + q) / 2) ^ 2) with ((p ^ 2 + q ^ 2) / 2 - (p - q) ^ 2 / 4) by field. lra.
  - rewrite asum_scal, asum_nsum. assert (P2 : periodic s (fun ix => ext u ix ^ 2)) by (intros ix Hix; rewrite (PE ix Hix); reflexivity).
    rewrite (@nsum_ext (gndim g) _ (fun a => asum s (fun ix => u ix * u ix) * (vm / hstep g a))).
    + rewrite nsum_scal. fold W. fold s. apply Req_le. ring.
    + intros a Ha. rewrite asum_scal. rewrite (@asum_ext s _ (fun ix => / 2 * ext u (next a ix) ^ 2 + / 2 * ext u (prev a ix) ^ 2)) by (intros; field). rewrite asum_plus, !asum_scal. unfold next, prev.
      rewrite (@asum_shift_periodic s a 1 (fun ix => ext u ix ^ 2) Hs P2), (@asum_shift_periodic s a (-1) (fun ix => ext u ix ^ 2) Hs P2). rewrite (@asum_ext s (fun ix => ext u ix ^ 2) (fun ix => u ix * u ix)) by (intros ix Hix; unfold ext; rewrite (wrap_inb _ _ Hix); ring). unfold Rdiv. field. apply Rgt_not_eq. apply Hpos; exact Ha.
Qed.
End Cen.

(* @prop C87 Centred (linear) advection of a scalar in a staggered, discretely divergence-free periodic flow, integrated with classic_rk4 and the time step of stable_time_step with a Courant number of at most sqrt(8) over the number of dimensions, never increases the sum of squares of the scalar, over any number of steps. *)
Lemma centred_advection_rk4_stable_lem : forall c v adt dt vm cm d (run : nat -> vec (list Z)), let g := ggrid (garray c) in
  periodic_field c -> (0 < gndim g)%nat -> periodic_vec g v -> homogeneous_vec v -> face_aligned (goff (garray c)) v ->
  (forall a, (a < gndim g)%nat -> 0 < hstep g a) -> 0 < vm -> 0 <= cm -> INR (gndim g) * cm <= sqrt 8 -> advection_stable_time_step vm cm g = Ok dt ->
  (forall u ix, In u v -> inb (gshape g) ix -> Rabs (get (gdata (garray u)) ix) <= vm) ->
  divergence v = Ok d -> (forall ix, inb (gshape g) ix -> get (gdata d) ix = 0) ->
  (forall n, classic_rk4 (tendency c (fun c => advect_linear c v adt)) (fun u => u) dt (run n) = Ok (run (S n))) ->
  forall n m, (n <= m)%nat -> cell_product g (run m) (run m) <= cell_product g (run n) (run n).
Proof.
  intros c v adt dt vm cm d run g Hc Hd Hv Hh Hf Hpos Hvm Hcm Hcd Edt Hvb Ed Hz Hrun.
  apply (@rk4_energy_stable_lem _ (cell_product g) (tendency c (fun c => advect_linear c v adt)) (fun u => u) dt run); auto.
  - apply cell_inner.
  - apply ten_linear; assumption.
  - apply id_projection.
  - intros w _. apply (@ten_skew c v adt d Hc Hd Hv Hh Hf Ed Hz).
  - intros w _. unfold energy. pose proof (@ten_bound c v adt d Hc Hd Hv Hh Hf Ed Hz vm Hpos ltac:(lra) Hvb w) as B. fold g in B. set (W := nsum _ _) in B. pose proof (proj2 (proj2 (proj2 (cell_inner g))) w) as E0.
    destruct (@advection_cfl_lem _ _ _ _ Hvm Hcm Edt) as (Hcfl & (a0 & Ha0 & E1)). assert (Hlg : length (gstep g) = gndim g) by apply (pf_wfg Hc). rewrite Hlg in Hcfl, Ha0.
    assert (Hdt : 0 <= dt). { specialize (Hpos a0 Ha0). assert (0 <= cm * hstep g a0) by (apply Rmult_le_pos; lra). apply Rmult_le_reg_l with vm; [auto|]. lra. }
    assert (HW : 0 <= dt * W <= sqrt 8). { split; [apply Rmult_le_pos; [exact Hdt|]; apply nsum_nonneg; intros a Ha; apply Rle_mult_inv_pos; [lra | apply Hpos; exact Ha]|]. eapply Rle_trans; [|exact Hcd]. unfold W. rewrite <- nsum_scal, <- nsum_const. apply nsum_le. intros a Ha. specialize (Hcfl a Ha). specialize (Hpos a Ha). apply (Rmult_le_reg_r (hstep g a)); [exact Hpos|]. replace (dt * (vm / hstep g a) * hstep g a) with (vm * dt) by (field; lra). exact Hcfl. }
    apply Rle_trans with ((dt * W) ^ 2 * cell_product g w w); [replace ((dt * W) ^ 2 * cell_product g w w) with (dt ^ 2 * (W ^ 2 * cell_product g w w)) by ring; apply Rmult_le_compat_l; [apply pow2_ge_0 | exact B]|].
    apply Rmult_le_compat_r; [exact E0|]. rewrite <- (pow2_sqrt 8) by lra. apply pow_incr. exact HW.
Qed.
(* @prop C87 With forward_euler the same centred advection is unstable for every time step: each step increases the sum of squares of the scalar by exactly dt^2 times the sum of squares of the tendency; midpoint_rk2 and heun_rk2 never decrease it either. *)
Lemma centred_advection_euler_grows_lem : forall c v adt dt d u, let g := ggrid (garray c) in let F := tendency c (fun c => advect_linear c v adt) in
  periodic_field c -> (0 < gndim g)%nat -> periodic_vec g v -> homogeneous_vec v -> face_aligned (goff (garray c)) v ->
  divergence v = Ok d -> (forall ix, inb (gshape g) ix -> get (gdata d) ix = 0) ->
  (exists u', forward_euler F (fun u => u) dt u = Ok u' /\ cell_product g u' u' = cell_product g u u + dt ^ 2 * cell_product g (F u) (F u)) /\
  (exists u', midpoint_rk2 F (fun u => u) dt u = Ok u' /\ heun_rk2 F (fun u => u) dt u = Ok u' /\ cell_product g u u <= cell_product g u' u').
Proof.
  intros c v adt dt d u g F Hc Hd Hv Hh Hf Ed Hz. pose proof (@cell_inner g) as IP. pose proof (@id_projection _ (cell_product g)) as OP. assert (SK : forall w, cell_product g (F w) w = 0) by (intros w; apply (@ten_skew c v adt d Hc Hd Hv Hh Hf Ed Hz)). assert (LN : is_linear F) by (apply ten_linear; assumption).
  split.
  - destruct (@forward_euler_energy_lem _ (cell_product g) F (fun u => u) dt u IP OP eq_refl (SK u)) as (u' & E & _ & EE). exists u'. split; [exact E | exact EE].
  - destruct (@rk_energy_lem _ (cell_product g) F (fun u => u) dt u IP LN OP (fun w _ => SK w) eq_refl) as ((u' & E2 & E3 & EE) & _). exists u'. split; [exact E2|]. split; [exact E3|]. unfold energy in EE. rewrite EE. pose proof (proj2 (proj2 (proj2 IP)) (F (F u))) as P0. pose proof (pow2_ge_0 (dt ^ 2)) as D. replace ((dt ^ 2) ^ 2) with (dt ^ 4) in D by ring.
    assert (0 <= dt ^ 4 / 4 * cell_product g (F (F u)) (F (F u))) by (apply Rmult_le_pos; [lra | exact P0]). lra.
Qed.
Lemma driftv_pv : periodic_vec tgg driftv.
Proof. split; [reflexivity|]; constructor; [|constructor; [|constructor]]; (split; [apply sampled_pf; reflexivity | reflexivity]). Qed.
Lemma driftv_face : face_aligned [1 # 2; 1 # 2]%Q driftv.
Proof. intros [|[|[|i]]] u E; cbn in E; try discriminate E; injection E as <-; repeat constructor. Qed.
Lemma driftv_div : exists d, divergence driftv = Ok d /\ forall ix, inb (gshape tgg) ix -> get (gdata d) ix = 0.
Proof.
  destruct (@divergence_spec_lem tgg [1 # 2; 1 # 2]%Q driftv ltac:(cbn; lia) driftv_pv eq_refl driftv_face) as (dv & E & (_ & _ & _ & V)). exists dv. split; [exact E|]. intros ix Hix. rewrite V by exact Hix. change (gndim tgg) with 2%nat.
  assert (EV : forall i jx, (i < 2)%nat -> vval driftv i jx = drift i []) by (intros i jx Hi; destruct i as [|[|i]]; [reflexivity | reflexivity | lia]). unfold nsum, lsum; cbn [fold_right map seq]. rewrite !EV by lia. unfold drift. unfold Rdiv. ring.
Qed.
Definition carried (n : nat) : vec (list Z) := Nat.iter n (fun u => match classic_rk4 (tendency tgc (fun c => advect_linear c driftv 1)) (fun u => u) (PI / 4) u with Ok w => w | Err _ => u end) (get (gdata (garray tgc))).
(* @ex *)
Lemma centred_advection_rk4_stable_ex_lem : periodic_field tgc /\ (0 < gndim (ggrid (garray tgc)))%nat /\ periodic_vec (ggrid (garray tgc)) driftv /\ homogeneous_vec driftv /\ face_aligned (goff (garray tgc)) driftv /\
  (forall a, (a < gndim (ggrid (garray tgc)))%nat -> 0 < hstep (ggrid (garray tgc)) a) /\ 0 < 1 /\ INR (gndim (ggrid (garray tgc))) * 1 <= sqrt 8 /\ advection_stable_time_step 1 1 (ggrid (garray tgc)) = Ok (PI / 4) /\
  (forall u ix, In u driftv -> inb (gshape (ggrid (garray tgc))) ix -> Rabs (get (gdata (garray u)) ix) <= 1) /\
  (exists d, divergence driftv = Ok d /\ forall ix, inb (gshape (ggrid (garray tgc))) ix -> get (gdata d) ix = 0) /\
  forall n, classic_rk4 (tendency tgc (fun c => advect_linear c driftv 1)) (fun u => u) (PI / 4) (carried n) = Ok (carried (S n)).
Proof.
  change (ggrid (garray tgc)) with tgg. change (goff (garray tgc)) with [1 # 2; 1 # 2]%Q. change (gndim tgg) with 2%nat. pose proof PI_RGT_0 as HPI.
  split; [apply sampled_pf; reflexivity|]. split; [lia|]. split; [exact driftv_pv|]. split; [repeat constructor|]. split; [exact driftv_face|]. split; [intros b Hb; rewrite (tgg_steps Hb); lra|]. split; [lra|].
  split. { replace (INR 2 * 1) with (sqrt 4); [apply sqrt_le_1; lra|]. replace 4 with (2 * 2) by ring. rewrite sqrt_square by lra. cbn. ring. }
  split. { unfold advection_stable_time_step. cbn [tgg gstep fold_left]. destruct (Req_EM_T 1 0); [lra|]. f_equal. rewrite Rmin_left by lra. field. }
  split; [intros w ix [<-|[<-|[]]] _; cbn [sampled garray gdata get drift]; rewrite ?Rabs_R1, ?Rabs_R0; lra|]. split; [exact driftv_div|].
  intros n. change (carried (S n)) with (match classic_rk4 (tendency tgc (fun c => advect_linear c driftv 1)) (fun u => u) (PI / 4) (carried n) with Ok w => w | Err _ => carried n end). destruct (rk_named_schemes_lem (tendency tgc (fun c => advect_linear c driftv 1)) (fun u => u) (PI / 4) (carried n)) as (_ & _ & _ & E). cbv zeta in E. rewrite E. reflexivity.
Qed.
(* @ex *)
Lemma centred_advection_euler_grows_ex_lem : periodic_field tgc /\ (0 < gndim (ggrid (garray tgc)))%nat /\ periodic_vec (ggrid (garray tgc)) driftv /\ homogeneous_vec driftv /\ face_aligned (goff (garray tgc)) driftv /\
  exists d, divergence driftv = Ok d /\ forall ix, inb (gshape (ggrid (garray tgc))) ix -> get (gdata d) ix = 0.
Proof.
  split; [apply sampled_pf; reflexivity|]. split; [cbn; lia|]. split; [exact driftv_pv|]. split; [repeat constructor|]. split; [exact driftv_face | exact driftv_div].
Qed.
