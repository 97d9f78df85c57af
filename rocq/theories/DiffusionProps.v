(** * Property C23: explicit diffusion *)
From Verif Require Import Prelude NdArr Grids_model Spec SpecLin SpecDiff LinAlg Boundaries_model FD_model PRep FDProofs FDProps WallBC WallBCProps ImposeProps WallFD Pressure_model PressureProps WallFDProps ProjectionProps Diffusion_model.
Set Implicit Arguments.
Local Open Scope Z_scope.

Lemma fold_Rmin l : forall x, (fold_left Rmin l x <= x)%R /\ (forall y, In y l -> (fold_left Rmin l x <= y)%R) /\ (fold_left Rmin l x = x \/ In (fold_left Rmin l x) l).
Proof.
  induction l as [|z l IH]; intros x; cbn [fold_left].
  - split; [lra|]. split; [intros y []|left; reflexivity].
  - destruct (IH (Rmin x z)) as (A & B & C). pose proof (Rmin_l x z). pose proof (Rmin_r x z). split; [lra|]. split.
    + intros y [-> | Hy]; [lra | apply B; exact Hy].
    + destruct C as [C|C]; [|right; right; exact C]. rewrite C. unfold Rmin. destruct (Rle_dec x z); [left; reflexivity | right; left; reflexivity].
Qed.
Lemma list_min_spec l : l <> [] -> exists m, list_min l = Ok m /\ In m l /\ forall y, In y l -> (m <= y)%R.
Proof.
  destruct l as [|x l]; intros H; [congruence|]. cbn [list_min]. destruct (fold_Rmin l x) as (A & B & C). eexists. split; [reflexivity|]. split.
  - destruct C as [-> | C]; [left; reflexivity | right; exact C].
  - intros y [-> | Hy]; [exact A | apply B; exact Hy].
Qed.
Lemma two_pow d : (1 <= d)%nat -> (2 * INR d <= 2 ^ d)%R.
Proof.
  induction d as [|d IH]; intros H; [lia|]. destruct d as [|d].
  - cbn. lra.
  - specialize (IH ltac:(lia)). rewrite S_INR. cbn [pow] in *.
    assert (1 <= 2 ^ d)%R by (apply pow_R1_Rle; lra). rewrite S_INR in *. lra.
Qed.

(* @prop C23 stable_time_step is infinite exactly when the viscosity is zero (whatever the grid); otherwise it is dx^2 / (viscosity * 2^ndim), dx being the smallest grid step. *)
Lemma stable_time_step_value_lem : forall nu g,
  (stable_time_step nu g = Ok None <-> nu = 0%R) /\
  (nu <> 0%R -> wfg g -> (0 < gndim g)%nat -> exists a, (a < gndim g)%nat /\ (forall i, (i < gndim g)%nat -> (hstep g a <= hstep g i)%R) /\
     stable_time_step nu g = Ok (Some (hstep g a ^ 2 / (nu * 2 ^ gndim g))%R)).
Proof.
  intros nu g. split.
  - unfold stable_time_step. destruct (Req_EM_T nu 0) as [E|E]; [tauto|]. split; [|tauto]. destruct (list_min _); cbn [bind]; discriminate.
  - intros Hnu (HL & _) Hd. unfold stable_time_step. destruct (Req_EM_T nu 0) as [E|_]; [contradiction|].
    destruct (@list_min_spec (gstep g)) as (m & Em & Hin & Hmin). { intros E. rewrite E in HL. cbn in HL. lia. }
    rewrite Em. cbn [bind]. destruct (In_nth _ _ 0%R Hin) as (a & Ha & Ea). exists a. split; [lia|]. split.
    + intros i Hi. unfold hstep at 1. rewrite Ea. apply Hmin. apply nth_In. lia.
    + unfold hstep. rewrite Ea. reflexivity.
Qed.
(* @ex *)
Lemma stable_time_step_value_ex_lem : wfg exg /\ (0 < gndim exg)%nat /\ (1 <> 0)%R.
Proof. split; [apply exu_wf|]. split; [unfold gndim; cbn; lia | lra]. Qed.

Lemma nbr_bounds b u a k ix m M : wf_garr u -> (a < gndim (ggrid u))%nat -> (k = 1 \/ k = -1) -> inb (gshape (ggrid u)) ix ->
  insulated_axis b u a \/ walls_between b u a m M ->
  (forall jx, inb (gshape (ggrid u)) jx -> (m <= get (gdata u) jx <= M)%R) -> (m <= nbr b u a k ix <= M)%R.
Proof.
  intros Hu Ha Hk Hix Hax Hb. pose proof (@inb_nth _ _ a Hix Ha) as Hr. set (n := Z.of_nat (nth a (gshape (ggrid u)) 0%nat)) in *.
  assert (Hla : (a < length ix)%nat) by (rewrite (inb_length _ _ Hix); exact Ha).
  assert (Hin : forall j, 0 <= j < n -> (m <= get (gdata u) (upd a j ix) <= M)%R) by (intros j Hj; apply Hb; apply inb_upd_same; auto).
  unfold nbr. fold n.
  destruct Hax as [[Hp | (Hc & (t1 & v1 & A1 & A2) & (t2 & v2 & B1 & B2))] | (He & lo & hi & Ev & Hlo & Hhi)].
  - rewrite (nth_error_nth _ _ _ Hp). destruct (nth a (bvals b) (None, None)). apply Hin. apply Z.mod_pos_bound. lia.
  - rewrite A1 in B1. injection B1 as <- ->. rewrite A2 in B2. injection B2 as <- ->.
    rewrite (nth_error_nth _ _ _ A1), (nth_error_nth _ _ _ A2). rewrite edge_not_half by exact Hc. cbv zeta beta iota. cbn [beyond].
    destruct (Z.ltb_spec (nth a ix 0 + k) 0); [|destruct (Z.leb_spec n (nth a ix 0 + k))]; rewrite ?Rmult_0_r, ?Rplus_0_r; apply Hin; lia.
  - destruct (edge_side b (goff u) a) as [[s v]|] eqn:E; [|congruence]. destruct (edge_side_inv _ _ _ E) as (Et & _ & _).
    unfold btype in Et. rewrite Et. rewrite (nth_error_nth _ _ _ Ev). cbv zeta beta iota.
    destruct (Z.ltb_spec (nth a ix 0 + k) (if s then 0 else 1)); [lra|]. destruct (Z.leb_spec (if s then n - 1 else n) (nth a ix 0 + k)); [lra|].
    apply Hin. destruct s; lia.
Qed.
Lemma insulated_walled b u a : insulated_axis b u a -> walled_axis b u a.
Proof. intros [H|(H & A & B)]; [left; exact H | right; left]. split; [exact H|]. exists Neumann, 0%R, Neumann, 0%R. auto. Qed.

Lemma diffuse_value c nu : wf_garr (garray c) -> (forall a, (a < gndim (ggrid (garray c)))%nat -> walled_axis (gbc c) (garray c) a) ->
  exists d, diffuse c nu = Ok d /\ is_field d (ggrid (garray c)) (goff (garray c)) (fun ix => nu * lapW c ix)%R.
Proof.
  intros Hc Hw. unfold diffuse. destruct (@lap_wall c Hc Hw) as (l & El & Hl). rewrite El. cbn [bind]. unfold ga_scale.
  destruct (prep_scalar_l Rmult nu Hl) as (d & Ed & Hd). exists d. split; [exact Ed | exact Hd].
Qed.

(* @prop C23 diffuse returns, at the offset of c, nu times the sum over axes of the second difference quotients, for every mix of periodic and walled axes. *)
Lemma diffuse_is_scaled_laplacian_lem : forall c nu,
  wf_garr (garray c) -> (forall a, (a < gndim (ggrid (garray c)))%nat -> walled_axis (gbc c) (garray c) a) ->
  exists d, diffuse c nu = Ok d /\ is_field d (ggrid (garray c)) (goff (garray c))
    (fun ix => nu * nsum (gndim (ggrid (garray c))) (fun a => second_difference (gbc c) (garray c) a ix))%R.
Proof. intros c nu Hc Hw. apply diffuse_value; auto. Qed.
(* @ex *)
Lemma diffuse_is_scaled_laplacian_ex_lem :
  wf_garr exu /\ forall a, (a < gndim (ggrid exu))%nat -> walled_axis (exb Dirichlet Neumann) exu a.
Proof.
  split; [apply exu_wf|]. intros [|[|a]] Ha; [left; reflexivity | | unfold gndim in Ha; simpl in Ha; lia].
  right; left. split; [apply exu_centred|]. exists Dirichlet, 5%R, Neumann, 7%R. split; [apply exb_lower|]. split; [apply exb_upper|]. auto.
Qed.

Lemma nsum_conv d (w x y : nat -> R) m M u : (forall a, (a < d)%nat -> (0 <= w a /\ m <= x a <= M /\ m <= y a <= M)%R) -> (m <= u <= M)%R ->
  (2 * nsum d w <= 1)%R -> (m <= u + nsum d (fun a => w a * (x a - 2 * u + y a)) <= M)%R.
Proof.
  intros H Hu Hs.
  assert (Hlo : ((m - u) * (2 * nsum d w) <= nsum d (fun a => w a * (x a - 2 * u + y a)))%R).
  { replace ((m - u) * (2 * nsum d w))%R with (nsum d (fun a => w a * (2 * (m - u))))%R.
    - apply nsum_le. intros a Ha. destruct (H a Ha) as (A & B & C). apply Rmult_le_compat_l; lra.
    - rewrite (@nsum_ext d _ (fun a => (2 * (m - u)) * w a)%R) by (intros; ring). rewrite nsum_scal. ring. }
  assert (Hhi : (nsum d (fun a => w a * (x a - 2 * u + y a)) <= (M - u) * (2 * nsum d w))%R).
  { replace ((M - u) * (2 * nsum d w))%R with (nsum d (fun a => w a * (2 * (M - u))))%R.
    - apply nsum_le. intros a Ha. destruct (H a Ha) as (A & B & C). apply Rmult_le_compat_l; lra.
    - rewrite (@nsum_ext d _ (fun a => (2 * (M - u)) * w a)%R) by (intros; ring). rewrite nsum_scal. ring. }
  assert (0 <= nsum d w)%R by (apply nsum_nonneg; intros a Ha; apply (H a Ha)). nra.
Qed.

(* @prop C23 Maximum principle: for 0 <= dt <= stable_time_step(nu, grid) with nu > 0 and positive grid steps, in every dimension, c + dt * diffuse(c, nu) stays within any bounds [m, M] that hold for c (and for the wall values, if any), when every axis is periodic, cell-centred with zero gradient, or edge-aligned between Dirichlet walls. *)
Lemma diffusion_maximum_principle_lem : forall c nu dt dtmax m M,
  let g := ggrid (garray c) in
  wf_garr (garray c) -> (0 < gndim g)%nat -> (forall a, (a < gndim g)%nat -> (0 < hstep g a)%R) -> (0 < nu)%R ->
  (forall a, (a < gndim g)%nat -> insulated_axis (gbc c) (garray c) a \/ walls_between (gbc c) (garray c) a m M) ->
  (forall ix, inb (gshape g) ix -> (m <= get (gdata (garray c)) ix <= M)%R) ->
  stable_time_step nu g = Ok (Some dtmax) -> (0 <= dt <= dtmax)%R ->
  exists d, diffuse c nu = Ok d /\ forall ix, inb (gshape g) ix -> (m <= get (gdata (garray c)) ix + dt * get (gdata d) ix <= M)%R.
Proof.
  intros c nu dt dtmax m M g Hc Hd Hh Hnu Hax Hb Est Hdt.
  destruct (@diffuse_value c nu Hc) as (d & Ed & (_ & _ & _ & Vd)).
  { intros a Ha. destruct (Hax a Ha) as [H|(H & _)]; [apply insulated_walled; exact H | right; right; exact H]. }
  exists d. split; [exact Ed|]. intros ix Hix. fold g in Vd. rewrite Vd by exact Hix. unfold lapW, at_. fold g.
  destruct (@stable_time_step_value_lem nu g) as (_ & Hst). destruct Hst as (am & Ham & Hmin & Est'); [lra | apply Hc | exact Hd|].
  rewrite Est in Est'. injection Est' as ->.
  rewrite <- Rmult_assoc, <- nsum_scal.
  rewrite (@nsum_ext _ _ (fun a => (dt * nu / hstep g a ^ 2) * (nbr (gbc c) (garray c) a 1 ix - 2 * get (gdata (garray c)) ix + nbr (gbc c) (garray c) a (-1) ix))%R).
  2:{ intros a Ha. specialize (Hh a Ha). field. lra. }
  apply (@nsum_conv (gndim g) (fun a => dt * nu / hstep g a ^ 2)%R (fun a => nbr (gbc c) (garray c) a 1 ix) (fun a => nbr (gbc c) (garray c) a (-1) ix) m M (get (gdata (garray c)) ix)).
  - intros a Ha. specialize (Hh a Ha). split.
    + apply Rle_mult_inv_pos; [nra | nra].
    + split; apply nbr_bounds; auto.
  - apply Hb. exact Hix.
  - pose proof (Hh am Ham) as Hm. set (h := hstep g am) in *.
    assert (H1 : (nsum (gndim g) (fun a => dt * nu / hstep g a ^ 2) <= INR (gndim g) * (dt * nu / h ^ 2))%R).
    { rewrite <- nsum_const. apply nsum_le. intros a Ha. specialize (Hh a Ha). specialize (Hmin a Ha). unfold Rdiv. apply Rmult_le_compat_l; [nra|].
      apply Rinv_le_contravar; nra. }
    pose proof (@two_pow (gndim g) Hd) as H2. set (P := (2 ^ gndim g)%R) in *.
    assert (HP : (0 < P)%R) by (apply pow_lt; lra).
    assert (H3 : (dt * nu / h ^ 2 <= / P)%R).
    { apply (Rmult_le_reg_r (h ^ 2)); [nra|]. unfold Rdiv. rewrite Rmult_assoc, Rinv_l by nra. rewrite Rmult_1_r.
      destruct Hdt as (_ & Hdt). apply (Rmult_le_compat_r nu) in Hdt; [|lra]. eapply Rle_trans; [exact Hdt|]. right. field. split; lra. }
    assert (H4 : (0 <= INR (gndim g))%R) by apply pos_INR.
    assert (H5 : (2 * (INR (gndim g) * (dt * nu / h ^ 2)) <= 1)%R).
    { apply Rle_trans with (2 * INR (gndim g) * / P)%R; [nra|]. apply (Rmult_le_reg_r P); [exact HP|]. rewrite Rmult_assoc, Rinv_l by lra. lra. }
    lra.
Qed.
(* @ex *)
Lemma diffusion_maximum_principle_ex_lem :
  wf_garr exu /\ (0 < gndim (ggrid exu))%nat /\ (forall a, (a < gndim (ggrid exu))%nat -> (0 < hstep (ggrid exu) a)%R) /\
  (forall a, (a < gndim (ggrid exu))%nat -> insulated_axis (homogeneous [(Periodic, Periodic); (Neumann, Neumann)]) exu a \/ walls_between (homogeneous [(Periodic, Periodic); (Neumann, Neumann)]) exu a 0 12) /\
  (forall ix, inb (gshape (ggrid exu)) ix -> (0 <= get (gdata exu) ix <= 12)%R) /\
  exists dtmax, stable_time_step 1 (ggrid exu) = Ok (Some dtmax) /\ (0 < dtmax)%R.
Proof.
  split; [apply exu_wf|]. split; [unfold gndim; cbn; lia|]. split.
  { intros [|[|a]] Ha; [| | unfold gndim in Ha; simpl in Ha; lia]; unfold hstep; cbn; lra. }
  split.
  { intros [|[|a]] Ha; [left; left; reflexivity | left; right | unfold gndim in Ha; simpl in Ha; lia].
    split; [apply exu_centred|]. split; repeat eexists. }
  split.
  { intros ix Hix. pose proof (@inb_nth _ _ 0%nat Hix ltac:(cbn; lia)) as H0. pose proof (@inb_nth _ _ 1%nat Hix ltac:(cbn; lia)) as H1. cbn in H0, H1. cbn [exu gdata get].
    split; apply IZR_le; lia. }
  destruct (@stable_time_step_value_lem 1 exg) as (_ & H). destruct H as (a & Ha & _ & E); [lra | apply exu_wf | unfold gndim; cbn; lia|].
  eexists. split; [exact E|]. destruct a as [|[|a]]; [| | unfold gndim in Ha; simpl in Ha; lia]; unfold hstep, gndim; cbn; lra.
Qed.

(** Sum of the second differences along one line of an insulated axis. *)
Lemma line_flux p n q : (0 < n)%nat ->
  rsum n (fun j => (if p : bool then q ((j + 1) mod Z.of_nat n)%Z else if (Z.of_nat n <=? j + 1)%Z then q (Z.of_nat n - 1)%Z else q (j + 1)%Z) - 2 * q j
     + (if p then q ((j + -1) mod Z.of_nat n)%Z else if (j + -1 <? 0)%Z then q 0%Z else q (j + -1)%Z))%R = 0%R.
Proof.
  intros Hn.
  rewrite (@rsum_ext n _ (fun j => ((if p then q ((j + 1) mod Z.of_nat n)%Z else if (Z.of_nat n <=? j + 1)%Z then q (Z.of_nat n - 1)%Z else q (j + 1)%Z) - q j)
     + ((if p then q ((j + -1) mod Z.of_nat n)%Z else if (j + -1 <? 0)%Z then q 0%Z else q (j + -1)%Z) - q j))%R) by (intros; ring).
  rewrite rsum_plus, !rsum_minus. destruct p.
  - rewrite (@rsum_mod_shift n 1 q Hn), (@rsum_mod_shift n (-1) q Hn). ring.
  - destruct n as [|n]; [lia|]. set (N := Z.of_nat (S n)).
    assert (E1 : rsum (S n) (fun j => if (N <=? j + 1)%Z then q (N - 1)%Z else q (j + 1)%Z)%R = (rsum (S n) q - q 0%Z + q (N - 1)%Z)%R).
    { cbn [rsum]. rewrite (proj2 (Z.leb_le N (Z.of_nat n + 1))) by lia. change (rsum n q + q (Z.of_nat n))%R with (rsum (S n) q). rewrite (rsum_S_l n q).
      rewrite (@rsum_ext n (fun j => if (N <=? j + 1)%Z then q (N - 1)%Z else q (j + 1)%Z) (fun j => q (j + 1)%Z))%R; [ring|].
      intros j Hj. destruct (Z.leb_spec N (j + 1)); [lia | reflexivity]. }
    assert (E2 : rsum (S n) (fun j => if (j + -1 <? 0)%Z then q 0%Z else q (j + -1)%Z)%R = (rsum (S n) q + q 0%Z - q (N - 1)%Z)%R).
    { rewrite (rsum_S_l n (fun j => if (j + -1 <? 0)%Z then q 0%Z else q (j + -1)%Z)%R). change (0 + -1 <? 0) with true. cbv iota.
      rewrite (@rsum_ext n _ q); [cbn [rsum]; replace (N - 1) with (Z.of_nat n) by lia; ring|].
      intros j Hj. destruct (Z.ltb_spec (j + 1 + -1) 0); [lia|]. f_equal. lia. }
    rewrite E1, E2. ring.
Qed.
Lemma insulated_sum b u a : wf_garr u -> (a < gndim (ggrid u))%nat -> insulated_axis b u a ->
  asum (gshape (ggrid u)) (fun ix => nbr b u a 1 ix - 2 * get (gdata u) ix + nbr b u a (-1) ix)%R = 0%R.
Proof.
  intros Hu Ha Hax. assert (Hal : (a < length (gshape (ggrid u)))%nat) by exact Ha.
  rewrite (@asum_axis (gshape (ggrid u)) a _ Hal). rewrite <- (asum_0 (upd a 1%nat (gshape (ggrid u)))). apply asum_ext. intros ix Hix.
  assert (Hli : (a < length ix)%nat) by (rewrite (inb_length _ _ Hix), upd_length; exact Hal).
  assert (Hn : (0 < nth a (gshape (ggrid u)) 0)%nat) by (apply allpos_nth; [apply Hu | exact Hal]).
  assert (Hnbr : exists p : bool, forall j, 0 <= j < Z.of_nat (nth a (gshape (ggrid u)) 0%nat) ->
     (nbr b u a 1 (upd a j ix) - 2 * get (gdata u) (upd a j ix) + nbr b u a (-1) (upd a j ix) =
      let q j := get (gdata u) (upd a j ix) in let n := nth a (gshape (ggrid u)) 0%nat in
      (if p then q ((j + 1) mod Z.of_nat n)%Z else if (Z.of_nat n <=? j + 1)%Z then q (Z.of_nat n - 1)%Z else q (j + 1)%Z) - 2 * q j
     + (if p then q ((j + -1) mod Z.of_nat n)%Z else if (j + -1 <? 0)%Z then q 0%Z else q (j + -1)%Z))%R).
  { destruct Hax as [Hp | (Hc & (t1 & v1 & A1 & A2) & (t2 & v2 & B1 & B2))].
    - exists true. intros j Hj. unfold nbr. rewrite !upd_upd_same, nth_upd_same by exact Hli.
      rewrite (nth_error_nth _ _ _ Hp). destruct (nth a (bvals b) (None, None)). reflexivity.
    - exists false. intros j Hj. unfold nbr. rewrite !upd_upd_same, nth_upd_same by exact Hli.
      rewrite A1 in B1. injection B1 as <- ->. rewrite A2 in B2. injection B2 as <- ->.
      rewrite (nth_error_nth _ _ _ A1), (nth_error_nth _ _ _ A2). rewrite edge_not_half by exact Hc. cbv zeta beta iota. cbn [beyond].
      destruct (Z.ltb_spec (j + 1) 0); [lia|]. destruct (Z.leb_spec (Z.of_nat (nth a (gshape (ggrid u)) 0%nat)) (j + -1)); [lia|].
      destruct (Z.leb_spec (Z.of_nat (nth a (gshape (ggrid u)) 0%nat)) (j + 1)); destruct (Z.ltb_spec (j + -1) 0); rewrite ?Rmult_0_r, ?Rplus_0_r; reflexivity. }
  destruct Hnbr as (p & Hnbr).
  etransitivity; [|apply (@line_flux p (nth a (gshape (ggrid u)) 0%nat) (fun j => get (gdata u) (upd a j ix)) Hn)].
  apply rsum_ext. exact Hnbr.
Qed.

(* @prop C23 Conservation: with every axis periodic or cell-centred with zero gradient, the sum of diffuse(c, nu) over all cells is zero, so c + dt * diffuse(c, nu) has the same total as c, for every nu and dt. *)
Lemma diffusion_conserves_total_lem : forall c nu,
  let g := ggrid (garray c) in
  wf_garr (garray c) -> (forall a, (a < gndim g)%nat -> insulated_axis (gbc c) (garray c) a) ->
  exists d, diffuse c nu = Ok d /\ total (gdata d) = 0%R /\
    forall dt, asum (gshape g) (fun ix => get (gdata (garray c)) ix + dt * get (gdata d) ix)%R = total (gdata (garray c)).
Proof.
  intros c nu g Hc Hax. destruct (@diffuse_value c nu Hc) as (d & Ed & (_ & _ & Sd & Vd)). { intros a Ha. apply insulated_walled. auto. }
  assert (E : total (gdata d) = 0%R).
  { unfold total. rewrite Sd. rewrite (@asum_ext _ _ (fun ix => nu * lapW c ix)%R) by exact Vd. rewrite asum_scal. unfold lapW. rewrite asum_nsum.
    rewrite nsum_zero; [ring|]. intros a Ha. unfold at_.
    rewrite (@asum_ext _ _ (fun ix => / hstep g a ^ 2 * (nbr (gbc c) (garray c) a 1 ix - 2 * get (gdata (garray c)) ix + nbr (gbc c) (garray c) a (-1) ix))%R) by (intros; unfold g, Rdiv; ring).
    rewrite asum_scal. rewrite insulated_sum by auto. ring. }
  exists d. split; [exact Ed|]. split; [exact E|]. intros dt. rewrite asum_plus, asum_scal. unfold total in *. rewrite Sd in E. fold g in E. rewrite E.
  destruct Hc as (_ & Sc & _). rewrite Sc. fold g. ring.
Qed.
(* @ex *)
Lemma diffusion_conserves_total_ex_lem :
  wf_garr exu /\ forall a, (a < gndim (ggrid exu))%nat -> insulated_axis (homogeneous [(Periodic, Periodic); (Neumann, Neumann)]) exu a.
Proof.
  split; [apply exu_wf|]. intros [|[|a]] Ha; [left; reflexivity | right | unfold gndim in Ha; simpl in Ha; lia].
  split; [apply exu_centred|]. split; repeat eexists.
Qed.

(* @prop C23 With a cell-centred Dirichlet wall the maximum principle fails at the stable time step: on any 1-d grid with h > 0 and nu > 0, the data (1, 0, 0) between walls of value 0 turns negative in the first cell. *)
Lemma diffusion_maximum_principle_dirichlet_refuted_lem : forall h nu, (0 < h)%R -> (0 < nu)%R ->
  let g := mkgrid [3%nat] [h] [(0, 3 * h)%R] in
  let c := mkgv (mkga (mkarr [3%nat] (fun ix => if nth 0 ix 0 =? 0 then 1%R else 0%R)) [(1 # 2)%Q] g) (homogeneous [(Dirichlet, Dirichlet)]) in
  exists dtmax d, stable_time_step nu g = Ok (Some dtmax) /\ diffuse c nu = Ok d /\
    (get (gdata (garray c)) [0%Z] + dtmax * get (gdata d) [0%Z] = - 1 / 2)%R.
Proof.
  intros h nu Hh Hnu g c.
  assert (Hw : wf_garr (garray c)). { repeat split; repeat constructor; cbn; (lia || lra). }
  destruct (@diffuse_value c nu Hw) as (d & Ed & (_ & _ & Sd & Vd)).
  { intros [|a] Ha; [|unfold gndim in Ha; simpl in Ha; lia]. right; left. split; [reflexivity|]. exists Dirichlet, 0%R, Dirichlet, 0%R.
    split; [repeat eexists|]. split; [repeat eexists|]. auto. }
  exists (h ^ 2 / (nu * 2 ^ 1))%R, d. split.
  { unfold stable_time_step. destruct (Req_EM_T nu 0); [lra|]. reflexivity. }
  split; [exact Ed|]. rewrite Vd by (cbn; lia). unfold lapW, at_, nsum, lsum, hstep, gndim. cbn. field. split; lra.
Qed.
