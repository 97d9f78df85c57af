(** * C67: where the pseudo-spectral products go wrong *)
From Verif Require Import Prelude NdArr Spec LinAlg Cplx Grids_model FastDiag_model TimeStep_model FourierProofs FourierLine Spectral_model SpectralProps SpectralUtilProps SpectralPadProps FourierShift RealShift SpecFourier SpectralStep_model SpecStep SpecKS NS2DBase NS2DRunProps KSRunProps KSMoreProps.
Set Implicit Arguments.
Local Open Scope Z_scope.

Lemma cos_4PI3 : cos (2 * PI * IZR 2 / 3) = cos (2 * PI * IZR 1 / 3).
Proof. replace (2 * PI * 2 / 3)%R with (- (2 * PI * 1 / 3) + 2 * IZR 1 * PI)%R by field. replace (2 * IZR 1 * PI)%R with (2 * INR 1 * PI)%R by (cbn; ring). rewrite cos_period. apply cos_neg. Qed.
Lemma cos_third : cos (2 * PI * IZR 1 / 3) = (- 1 / 2)%R.
Proof. replace (2 * PI * 1 / 3)%R with (2 * (PI / 3))%R by field. apply cos_2PI3. Qed.
(* @prop C67 Refuted: with smooth=False on a grid with an odd number of points, KuramotoSivashinsky.explicit_terms is not -1/2 d/dx of the square of the field: on 3 points the field (0, 1, -1) gives zero at every mode, while -(1/2) (2 pi i k_1) rfft(u^2)[1] is not zero (irfft returns N - 1 points and drops the imaginary part of the last mode). *)
Lemma ks_odd_points_refuted_lem : exists (g : grid) (u : arr R) (W : arr cplx),
  grid1 g 3 1 /\ shp u = [3%nat] /\ ks_explicit_terms g false (rfftn u) = Ok W /\ shp W = [2%nat] /\ (forall k, get W [k] = C0) /\
  Cmul (Cscal (- (1 / 2)) (Cmul two_pi_i (RtoC (freq 3 1 1)))) (get (rfftn (amap (fun x => x ^ 2)%R u)) [1]) <> C0.
Proof.
  set (g := mkgrid [3%nat] [1%R] [(0%R, 3%R)]). set (u := mkarr [3%nat] (fun ix => let j := nth 0%nat ix 0 in if j =? 1 then 1%R else if j =? 2 then (-1)%R else 0%R)).
  assert (Hg : grid1 g 3 1) by (repeat split; try lia; lra). destruct (@rfftn1 u 3 eq_refl) as [SU GU]. change (3 / 2 + 1)%nat with 2%nat in SU.
  destruct (@irfftn1 (rfftn u) 2 SU) as [Si Gi]. change (2 * (2 - 1))%nat with 2%nat in *.
  assert (I0 : forall j, get (irfftn (rfftn u)) [j] = 0%R).
  { intros j. rewrite Gi. unfold irfft1. rewrite (@ifft1_ext 2 _ (fun _ => C0)).
    - unfold ifft1. rewrite csum_zero; [reflexivity|]. intros. ring.
    - intros k Hk. assert (Hk2 : k = 0 \/ k = 1) by lia. destruct Hk2 as [-> | ->]; unfold hermitian_ext; cbn [Z.eqb Z.of_nat Z.ltb Z.mul Z.compare Pos.mul Pos.compare Pos.compare_cont Pos.eqb Pos.of_succ_nat Pos.succ]; rewrite GU; unfold fft1; rewrite re_csum; cbn [rsum]; unfold u; cbn [get nth Z.eqb Pos.eqb Z.of_nat Pos.of_succ_nat Pos.succ];
        unfold dftm; rewrite !cis_neg_form.
      + unfold cis. cbn [re im Cmul RtoC]. rewrite !Z.mul_0_r. change (- 0) with 0. replace (2 * PI * 0 / INR 3)%R with 0%R by (unfold Rdiv; ring). rewrite cos_0, sin_0. change C0 with (RtoC 0). f_equal. ring.
      + rewrite !Z.mul_1_r. change (- (0)) with 0. unfold cis. cbn [re im Cmul RtoC]. rewrite !opp_IZR. replace (INR 3) with 3%R by (cbn; ring). replace (2 * PI * - (1) / 3)%R with (- (2 * PI * 1 / 3))%R by field. replace (2 * PI * - (2) / 3)%R with (- (2 * PI * 2 / 3))%R by field. rewrite !cos_neg, cos_4PI3. change C0 with (RtoC 0). f_equal. ring. }
  unfold ks_explicit_terms. destruct (rfft_axes1 Hg). 
  exists g, u. unfold ks_explicit_terms. rewrite (rfft_axes1 Hg). change (3 / 2 + 1)%nat with 2%nat. cbn [bind]. unfold plain_irfft, plain_rfft. rewrite SU. cbn [nth Nat.ltb Nat.leb bind amap shp]. rewrite Si. cbn [nth Nat.eqb bind].
  destruct (@rfftn1 (amap (fun x => x ^ 2)%R (irfftn (rfftn u))) 2 Si) as [S2 G2]. rewrite ew_ok by (cbn [shp]; rewrite S2; reflexivity). eexists. split; [exact Hg|]. split; [reflexivity|]. split; [reflexivity|]. split; [reflexivity|]. split.
  - intros k. cbn [get amap2]. rewrite G2. replace (fft1 2 _ k) with C0; [ring|]. symmetry. unfold fft1. apply csum_zero. intros i _. cbn [get amap]. rewrite I0. apply Ceq; cbn; ring.
  - destruct (@rfftn1 (amap (fun x => x ^ 2)%R u) 3 eq_refl) as [_ G3]. rewrite G3. intros E. apply (f_equal im) in E. revert E.
    assert (Hre : re (fft1 3 (fun j => RtoC (get (amap (fun x => x ^ 2)%R u) [j])) 1) = (-1)%R).
    { unfold fft1. rewrite re_csum. cbn [rsum]. unfold u. cbn [get amap nth Z.eqb Pos.eqb Z.of_nat Pos.of_succ_nat Pos.succ]. unfold dftm; rewrite !cis_neg_form. rewrite !Z.mul_1_r. change (- (0)) with 0. unfold cis. cbn [re im Cmul RtoC]. rewrite !opp_IZR. replace (INR 3) with 3%R by (cbn; ring). replace (2 * PI * - (1) / 3)%R with (- (2 * PI * 1 / 3))%R by field. replace (2 * PI * - (2) / 3)%R with (- (2 * PI * 2 / 3))%R by field. rewrite !cos_neg, cos_4PI3, cos_third. field. }
    set (y := fft1 3 _ 1) in *. clearbody y. destruct y as [a b]. cbn [re] in Hre. subst a. unfold freq. cbn. replace (1 + 1 + 1)%R with 3%R by ring. pose proof PI_RGT_0. intros E. assert (PI = 0)%R; [|lra]. field_simplify in E. lra.
Qed.
(* @prop C67 Refuted: with dealiasing, KuramotoSivashinsky.explicit_terms does not commute with translations by one cell at the highest wave number: on 4 points there are two fields, the second the first translated by one cell, whose explicit terms W and W' do not satisfy W'[2] = e^{i pi} W[2] (the Nyquist mode is padded as if it were an ordinary mode). *)
Lemma ks_one_cell_shift_refuted_lem : exists (g : grid) (u u' : arr R) (W W' : arr cplx),
  grid1 g 4 (1/4) /\ shp u = [4%nat] /\ shp u' = [4%nat] /\ (forall j, get u' [j] = get u [(j + 1) mod 4]) /\
  ks_explicit_terms g true (rfftn u) = Ok W /\ ks_explicit_terms g true (rfftn u') = Ok W' /\
  get W' [2] <> Cmul (cis (2 * PI * IZR (2 * 1) / INR 4)) (get W [2]).
Proof.
  set (g := mkgrid [4%nat] [(1/4)%R] [(0%R, 1%R)]). assert (Hg : grid1 g (2 * 2) (1/4)) by (repeat split; try lia; lra). assert (Hs : good_size true 2) by (split; [lia | exists 1%nat; reflexivity]).
  set (u := mkarr [4%nat] (fun ix => if Z.even (nth 0%nat ix 0) then 1%R else (-1)%R)). set (u' := mkarr [4%nat] (fun ix => if Z.even (nth 0%nat ix 0) then (-1)%R else 1%R)).
  assert (Hev : forall j, Z.even ((j + 1) mod 4) = negb (Z.even j)).
  { intros j. pose proof (Z.div_mod (j + 1) 4 ltac:(lia)) as E. replace ((j + 1) mod 4) with (j + 1 + 2 * (- (2 * ((j + 1) / 4)))) by lia. rewrite Z.even_add_mul_2. rewrite Z.even_add. destruct (Z.even j); reflexivity. }
  assert (Hu : forall j, get u' [j] = get u [(j + 1) mod 4]) by (intros j; unfold u, u'; cbn [get nth]; rewrite Hev; destruct (Z.even j); reflexivity).
  assert (Hneg : forall j, get u' [j] = (-1 * get u [j])%R) by (intros j; unfold u, u'; cbn [get nth]; destruct (Z.even j); ring).
  destruct (@rfftn1 u 4 eq_refl) as [SU GU]. destruct (@rfftn1 u' 4 eq_refl) as [SU' GU']. change (4 / 2 + 1)%nat with 3%nat in *.
  destruct (@ks_form g 2 (1/4) true (rfftn u) Hs Hg SU) as (W & EW & _ & GW). destruct (@ks_form g 2 (1/4) true (rfftn u') Hs Hg SU') as (W' & EW' & _ & GW').
  exists g, u, u', W, W'. split; [repeat split; try lia; lra|]. split; [reflexivity|]. split; [reflexivity|]. split; [exact Hu|]. split; [exact EW|]. split; [exact EW'|].
  assert (EWW : get W' [2] = get W [2]).
  { rewrite GW, GW'. do 2 f_equal. apply fft1_ext. intros j _. f_equal. rewrite (@gvals_ext _ _ _ (fun k => get (rfftn u') [k]) (fun k => Cscal (-1) (get (rfftn u) [k]))); [rewrite gvals_scal; ring|].
    intros k _. rewrite GU, GU', <- fft1_scal. apply fft1_ext. intros i _. rewrite Hneg. reflexivity. }
  rewrite EWW. replace (2 * PI * IZR (2 * 1) / INR 4)%R with PI by (cbn; field). intros E.
  assert (W2 : get W [2] = C0). { revert E. generalize (get W [2]). intros [a b] E. unfold cis in E. rewrite cos_PI, sin_PI in E. apply Ceq; [apply (f_equal re) in E | apply (f_equal im) in E]; cbn in *; lra. }
  clear E EWW. revert W2. rewrite GW. change (prod_points true 2) with 6%nat. unfold up_scale, down_scale.
  set (A := hermitian_ext 6 (padded (2 + 1) (fun k => get (rfftn u) [k]))).
  assert (U0 : forall k, 0 <= k <= 2 -> get (rfftn u) [k] = if k =? 2 then RtoC 4 else C0).
  { intros k Hk. rewrite GU. unfold fft1. cbn [csum gsum]. unfold csum. cbn [gsum]. unfold u. cbn [get nth Z.of_nat Pos.of_succ_nat Pos.succ Z.even]. unfold dftm. rewrite !cis_neg_form. replace (INR 4) with 4%R by (cbn; ring).
    assert (Hk3 : k = 0 \/ k = 1 \/ k = 2) by lia. destruct Hk3 as [-> | [-> | ->]]; cbn [Z.mul Z.opp Pos.mul Pos.add Pos.succ Z.eqb Pos.eqb].
    - unfold cis. replace (2 * PI * 0 / 4)%R with 0%R by field. rewrite cos_0, sin_0. apply Ceq; cbn; ring.
    - unfold cis. replace (2 * PI * 0 / 4)%R with 0%R by field. replace (2 * PI * -1 / 4)%R with (- (PI / 2))%R by field. replace (2 * PI * -2 / 4)%R with (- PI)%R by field. replace (2 * PI * -3 / 4)%R with (- (3 * (PI / 2)))%R by field. rewrite !cos_neg, !sin_neg, cos_0, sin_0, cos_PI, sin_PI, cos_PI2, sin_PI2, cos_3PI2, sin_3PI2. apply Ceq; cbn; ring.
    - unfold cis. replace (2 * PI * 0 / 4)%R with 0%R by field. replace (2 * PI * -2 / 4)%R with (- PI)%R by field. replace (2 * PI * -4 / 4)%R with (- (2 * PI))%R by field. replace (2 * PI * -6 / 4)%R with (- (PI + 2 * INR 1 * PI))%R by (cbn; field). rewrite !cos_neg, !sin_neg, cos_period, sin_period, cos_0, sin_0, cos_PI, sin_PI, cos_2PI, sin_2PI. apply Ceq; cbn; ring. }
  assert (F2 : fft1 6 (fun j => RtoC (gvals 6 (3 / 2) (2 + 1) (fun k => get (rfftn u) [k]) j ^ 2)) 2 = RtoC 6).
  { rewrite (@fft1_ext 6 _ (fun j => Cscal (9 / 4) (Cmul (ifft1 6 A j) (ifft1 6 A j)))).
    - rewrite fft1_cscal, convolution by lia.
      assert (EA : A 0 = C0 /\ A 1 = C0 /\ A 2 = RtoC 4 /\ A 3 = C0 /\ A 4 = RtoC 4 /\ A 5 = C0).
      { unfold A, hermitian_ext, padded. cbn [Z.eqb Z.ltb Z.mul Z.compare Z.of_nat Z.sub Z.add Z.opp Z.pos_sub Pos.mul Pos.compare Pos.compare_cont Pos.eqb Pos.of_succ_nat Pos.succ Pos.add Pos.pred_double Pos.sub Nat.add Z.succ_double Z.pred_double Z.double]. rewrite !U0 by lia. repeat split; apply Ceq; cbn; ring. }
      destruct EA as (A0 & A1 & A2 & A3 & A4 & A5). unfold csum. cbn [gsum Z.of_nat Pos.of_succ_nat Pos.succ]. 
      change ((2 - 0) mod 6) with 2. change ((2 - 1) mod 6) with 1. change ((2 - 2) mod 6) with 0. change ((2 - 3) mod 6) with 5. change ((2 - 4) mod 6) with 4. change ((2 - 5) mod 6) with 3. rewrite A0, A1, A2, A3, A4, A5. replace (INR 6) with 6%R by (unfold INR; lra). apply Ceq; cbn [re im Cscal Cadd Cmul RtoC C0]; lra.
    - intros j _. unfold gvals. fold (irfft1 6 (padded (2 + 1) (fun k => get (rfftn u) [k])) j). change (ifft1 6 A j) with (irfft1 6 (padded (2 + 1) (fun k => get (rfftn u) [k])) j). pose proof (@irfft1_real 6 (padded (2 + 1) (fun k => get (rfftn u) [k])) j ltac:(lia)) as Hr. set (z := irfft1 6 _ j) in *. clearbody z. destruct z as [x y]. apply (f_equal im) in Hr. cbn in Hr. subst y. apply Ceq; cbn; field. }
  rewrite F2. intros E. apply (f_equal im) in E. unfold freq in E. cbn in E. pose proof PI_RGT_0. field_simplify in E. lra.
Qed.
