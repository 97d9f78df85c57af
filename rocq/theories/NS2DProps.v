(** * C65: the two-dimensional pseudo-spectral Navier-Stokes equation *)
From Verif Require Import Prelude NdArr LinAlg Cplx Grids_model FastDiag_model FourierProofs FourierLine Spectral_model SpectralProps SpectralUtilProps FourierPlane SpecFourier NS2DBase.
Set Implicit Arguments.
Local Open Scope Z_scope.

Lemma RtoC_asum2 n m f : RtoC (asum [n; m] f) = csum2 n m (fun i j => RtoC (f [i; j])).
Proof. change (RtoC (rsum n (fun i => rsum m (fun j => f [i; j]))) = csum2 n m (fun i j => RtoC (f [i; j]))). rewrite RtoC_rsum. apply csum_ext. intros i _. apply RtoC_rsum. Qed.
Lemma Cmul_0_l z : Cmul C0 z = C0. Proof. ceq. Qed.
Lemma Cmul_0_r z : Cmul z C0 = C0. Proof. ceq. Qed.
Lemma not_nyquist n m W p q : (0 < n)%nat -> no_nyquist n m W -> 0 <= p < Z.of_nat n -> 0 <= q < Z.of_nat m -> herm2 n m W p q <> C0 ->
  signed n (nneg n p) = - signed n p /\ signed m (nneg m q) = - signed m q.
Proof.
  intros Hn HN Hp Hq H. split; apply signed_neg; try assumption; intros E; apply H; apply herm2_nyquist; auto.
Qed.
Lemma adv_mean n m hx hy W : (0 < n)%nat -> (0 < m)%nat -> no_nyquist n m W -> csum2 n m (adv_field n m hx hy (herm2 n m W)) = C0.
Proof.
  intros Hn Hm HN. set (H := herm2 n m W). unfold adv_field.
  set (A1 := fun p q => Cmul (dxs n hx (signed n p) (signed m q)) (H p q)). set (B1 := fun p q => Cmul (uxs n m hx hy (signed n p) (signed m q)) (H p q)).
  set (A2 := fun p q => Cmul (dys m hy (signed n p) (signed m q)) (H p q)). set (B2 := fun p q => Cmul (uys n m hx hy (signed n p) (signed m q)) (H p q)).
  transitivity (Cmul (Copp C1) (Cadd (csum2 n m (fun i j => Cmul (ifft2 n m A1 i j) (ifft2 n m B1 i j))) (csum2 n m (fun i j => Cmul (ifft2 n m A2 i j) (ifft2 n m B2 i j))))).
  { rewrite <- csum2_plus, <- csum2_scal. apply csum2_ext. intros. ring. }
  rewrite !sum_pair by assumption.
  transitivity (Cmul (Copp C1) (Cscal (/ (INR n * INR m)) (Cadd (csum2 n m (fun p q => Cmul (A1 p q) (B1 (nneg n p) (nneg m q)))) (csum2 n m (fun p q => Cmul (A2 p q) (B2 (nneg n p) (nneg m q))))))); [ceq|].
  rewrite <- csum2_plus. rewrite csum2_zero; [ceq|]. intros p q Hp Hq. unfold A1, A2, B1, B2.
  destruct (C_dec (H p q) C0) as [E|E]; [rewrite E; ceq|]. destruct (not_nyquist Hn HN Hp Hq E) as [E1 E2]. rewrite E1, E2, uxs_neg, uys_neg.
  set (h := H p q). set (h' := H (nneg n p) (nneg m q)). unfold uxs, uys. set (s := sig _ _ _ _ _ _). clearbody h h' s. unfold dxs, dys. destruct h, h', s. ceq.
Qed.
Lemma mask_band g n m F N D : gshape g = [n; m] -> (3 <= n)%nat -> (0 < m)%nat -> brick_wall_filter_2d g = Ok F ->
  (forall p q, get N [p; q] = Cscal (get F [p; q]) (D p q)) -> band_limited n m N.
Proof.
  intros Hg Hn Hm HF HN i b Hi Hb K. destruct (@filter_kept g n m Hg Hn Hm) as (F' & E & _ & H). rewrite HF in E. injection E as <-. rewrite HN. rewrite (proj2 (H i b Hi Hb) K). ceq.
Qed.
(* @prop C65 Mean vorticity. On every grid with n >= 3 rows and an even number m of columns, for every vorticity spectrum inside the 2/3 band, NavierStokes2D.explicit_terms succeeds, its result lies again inside the band (unforced), and its mean mode is zero, with or without a forcing (any forcing function returning two arrays of the grid's shape): the explicit terms never create mean vorticity. *)
Lemma ns2d_mean_vorticity_lem : forall (g : grid) (n m : nat) (hx hy : R) (smooth : bool) (W : arr cplx),
  grid2 g n m hx hy -> (3 <= n)%nat -> Nat.Even m -> shp W = [n; (m / 2 + 1)%nat] -> band_limited n m W ->
  (exists N, ns2d_explicit_terms g (Some smooth) None W = Ok N /\ shp N = [n; (m / 2 + 1)%nat] /\ band_limited n m N /\ get N [0; 0] = C0) /\
  (forall f, (forall vx vy, shp vx = [n; m] -> shp vy = [n; m] -> exists fx fy, f vx vy = Ok (fx, fy) /\ shp fx = [n; m] /\ shp fy = [n; m]) ->
     exists N, ns2d_explicit_terms g (Some smooth) (Some f) W = Ok N /\ shp N = [n; (m / 2 + 1)%nat] /\ get N [0; 0] = C0).
Proof.
  intros g n m hx hy smooth W Hg Hn3 He Hw HB. pose proof Hg as (Hs & _ & Hn & Hm & Hx & Hy).
  pose proof (band_no_nyquist Hn3 Hm HB) as HN.
  destruct (@ns2d_form g n m hx hy smooth W Hg Hn3 He Hw HN) as (F & N & a & EF & EN & SN & Ha & GN).
  assert (N0 : get N [0; 0] = C0).
  { rewrite GN, fft2_00. rewrite (@csum2_ext n m _ (adv_field n m hx hy (herm2 n m (fun p q => get W [p; q])))) by (intros; apply Ha). rewrite adv_mean by assumption. ceq. }
  split; [exists N; repeat split; try assumption; eapply mask_band; eassumption|].
  intros f Hf. pose proof (rfft_mesh2 Hg) as Em. destruct (@velocity_symbols g n m hx hy W Hg Hw) as (U & V & EV & SU & SV & _).
  destruct (@irfftn2 U n m ltac:(congruence) Hn Hm He) as [S1 _]. destruct (@irfftn2 V n m ltac:(congruence) Hn Hm He) as [S2 _].
  destruct (Hf _ _ S1 S2) as (fx & fy & Ef & Sx & Sy). revert EN. unfold ns2d_explicit_terms. rewrite Em, EF, EV. cbn [bind fst snd].
  rewrite ew_ok by (rewrite Hw; reflexivity). cbn [bind]. rewrite ew_ok by (rewrite Hw; reflexivity). cbn [bind].
  match goal with |- context [irfftn (amap2 ?h (mesh_x n m hx) W)] => destruct (@irfftn2 (amap2 h (mesh_x n m hx) W) n m eq_refl Hn Hm He) as [S3 _] end.
  match goal with |- context [irfftn (amap2 ?h (mesh_y n m hy) W)] => destruct (@irfftn2 (amap2 h (mesh_y n m hy) W) n m eq_refl Hn Hm He) as [S4 _] end.
  rewrite ew_ok by congruence. cbn [bind]. rewrite ew_ok by congruence. cbn [bind]. rewrite ew_ok by (cbn; congruence). cbn [bind].
  match goal with |- context [ew ?h ?x F] => destruct (ew h x F) as [t|e]; [|discriminate] end. cbn [bind]. intros Et. injection Et as ->. rewrite Ef. cbn [bind fst snd].
  destruct (rfftn2 _ Sx) as [S5 _]. destruct (rfftn2 _ Sy) as [S6 _].
  unfold spectral_curl_2d. rewrite ew_ok by (rewrite S6; reflexivity). cbn [bind]. rewrite ew_ok by (rewrite S5; reflexivity). cbn [bind]. rewrite ew_ok by (cbn; congruence). cbn [bind].
  rewrite ew_ok by (cbn; congruence). eexists. split; [reflexivity|]. split; [cbn; exact SN|]. cbn [get amap amap2 mesh_x mesh_y nth]. rewrite N0.
  replace (freq n hx (signed n 0)) with 0%R by (replace (signed n 0) with 0 by (unfold signed; zb; lia); unfold freq, Rdiv; ring). replace (freq m hy 0) with 0%R by (unfold freq, Rdiv; ring). ceq.
Qed.
(* @ex *)
Lemma ns2d_mean_vorticity_ex_lem : grid2 ex_grid2 4 4 (1/4) (1/2) /\ exists W : arr cplx, shp W = [4%nat; (4 / 2 + 1)%nat] /\ band_limited 4 4 W /\ get W [3; 1] = C1.
Proof.
  split; [apply ex_grid2_ok|]. exists (mkarr [4%nat; 3%nat] (fun ix => if (nth 0 ix 0 =? 3) && (nth 1 ix 0 =? 1) then C1 else C0)).
  split; [reflexivity|]. split; [|reflexivity]. intros i b Hi Hb K. cbn [get nth]. destruct (Z.eqb_spec i 3) as [->|]; [destruct (Z.eqb_spec b 1) as [->|]|]; cbn [andb]; try reflexivity.
  exfalso. apply K. unfold kept_rows, kept_columns, row_wave. cbn. lia.
Qed.
