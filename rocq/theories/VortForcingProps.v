(** * Forcing in vorticity space (C98) *)
From Verif Require Import Prelude NdArr LinAlg Cplx Grids_model Boundaries_model FastDiag_model FourierProofs FourierLine Spectral_model SpectralProps SpectralUtilProps SpectralPadProps FourierPlane SpecFourier NS2DBase ArrayUtils_model Rollout_model Networks_model Viscosities_model VortCodec_model SpecVort PRep VortProps VortForcing_model.
Set Implicit Arguments.
Local Open Scope Z_scope.

Lemma modes_curl g n m hx hy u v W : grid2 g n m hx hy -> Nat.Even m -> shp W = [n; (m / 2 + 1)%nat] ->
  (forall p q, get W [p; q] = spectral_curl (freq n hx (signed n p)) (freq m hy q) (fourier n m u p q) (fourier n m v p q)) ->
  exists x, irfft2 W = Ok x /\ shp x = [n; m] /\ curl_of n m (INR n * hx) (INR m * hy) u v (fun i j => get x [i; j]).
Proof.
  intros Hg He SW GW. destruct Hg as (_ & _ & Hn & Hm & Hx & Hy).
  destruct (@irfftn2 W n m SW Hn Hm He) as [S2 G2]. exists (irfftn W). split; [apply (@irfft2_even W n m SW Hn Hm He)|]. split; [exact S2|].
  assert (G : forall p q, 0 <= p < Z.of_nat n -> 0 <= q < Z.of_nat m -> fourier n m (fun i j => get (irfftn W) [i; j]) p q = herm2 n m (fun p q => spectral_curl (freq n hx (signed n p)) (freq m hy q) (fourier n m u p q) (fourier n m v p q)) p q).
  { intros p q Hp Hq. rewrite <- fourier_fft2. transitivity (fft2 n m (ifft2 n m (herm2 n m (fun p q => get W [p; q]))) p q); [apply fft2_ext; intros; apply G2|].
    rewrite fft2_ifft2 by assumption. apply herm2_ext; auto. }
  intros a' b' Ha' Hb'. pose proof (@mod_diff n a' Hn) as Da. pose proof (@mod_diff m b' Hm) as Db.
  assert (Ra : 0 <= a' mod Z.of_nat n < Z.of_nat n) by (apply Z.mod_pos_bound; lia). assert (Rb : 0 <= b' mod Z.of_nat m < Z.of_nat m) by (apply Z.mod_pos_bound; lia).
  pose proof (@signed_mod n a' Hn Ha') as Sa. pose proof (@signed_mod m b' Hm Hb') as Sb.
  rewrite !(@fourier_mod n m _ a' b' (a' mod Z.of_nat n) (b' mod Z.of_nat m)) by assumption. rewrite G by assumption. rewrite curl_modes; auto.
  - unfold spectral_curl, freq. rewrite Sa, Sb. reflexivity.
  - intros E. unfold signed in Sa. destruct (Z.ltb_spec (2 * (a' mod Z.of_nat n)) (Z.of_nat n)); lia.
  - intros E. unfold signed in Sb. destruct (Z.ltb_spec (2 * (b' mod Z.of_nat m)) (Z.of_nat m)); lia.
Qed.
Lemma curl_mean_zero n m Lx Ly u v w : (0 < n)%nat -> (0 < m)%nat -> curl_of n m Lx Ly u v w -> mean2 n m w = 0%R.
Proof.
  intros Hn Hm G. pose proof (G 0 0 ltac:(lia) ltac:(lia)) as E. rewrite fourier_00 in E. unfold mean2.
  assert (E0 : rsum n (fun i => rsum m (fun j => w i j)) = 0%R); [|rewrite E0; unfold Rdiv; ring].
  apply (f_equal re) in E. cbn [re RtoC] in E. rewrite E. unfold Rdiv. destruct (fourier n m v 0 0), (fourier n m u 0 0). cbn. ring.
Qed.
Lemma forced_decode g n m hx hy w x y forcing fu fv fx fy : grid2 g n m hx hy -> Nat.Even m -> vorticity_decoder g w = Ok [x; y] ->
  forcing [mkgv (mkga x [0; 0]%Q g) (periodic_bc 2); mkgv (mkga y [0; 0]%Q g) (periodic_bc 2)] = Ok [fu; fv] -> shows n m (gdata fu) fx -> shows n m (gdata fv) fy ->
  exists r, vorticity_space_forcing g forcing w = Ok r /\ shp r = [n; m] /\ curl_of n m (INR n * hx) (INR m * hy) fx fy (fun i j => get r [i; j]).
Proof.
  intros Hg He Ed Ef Hu Hv. pose proof (rfft_mesh2 Hg) as Em. pose proof Hg as (Hs & _ & Hn & Hm & _ & _).
  unfold vorticity_decoder, spectral_vorticity_decoder in Ed. apply bind_Ok_inv in Ed as (w1 & E1 & Ed). apply bind_Ok_inv in Ed as (W & E2 & Ed). apply bind_Ok_inv in Ed as (uv & E3 & Ed).
  apply bind_Ok_inv in Ed as (x' & E4 & Ed). apply bind_Ok_inv in Ed as (y' & E5 & Ed). injection Ed as -> ->.
  unfold vorticity_space_forcing. rewrite E1. cbn [bind]. rewrite E2. cbn [bind]. rewrite E3. cbn [bind]. rewrite E4. cbn [bind]. rewrite E5. cbn [bind].
  assert (D : gndim g = 2%nat) by (unfold gndim; rewrite Hs; reflexivity).
  assert (MK : forall a, mk_gvar (mkga a [0; 0]%Q g) (periodic_bc (gndim g)) = Ok (mkgv (mkga a [0; 0]%Q g) (periodic_bc 2))).
  { intros a. unfold mk_gvar. cbn [ggrid]. rewrite D. reflexivity. }
  rewrite !MK. cbn [bind]. rewrite Ef. cbn [bind]. rewrite Em.
  destruct (rfft2_shows Hn Hm Hu) as (X & EX & SX & GX). destruct (rfft2_shows Hn Hm Hv) as (Y & EY & SY & GY). rewrite EX. cbn [bind]. rewrite EY. cbn [bind].
  rewrite ew_ok by (rewrite SY; reflexivity). cbn [bind]. rewrite ew_ok by (rewrite SX; reflexivity). cbn [bind]. rewrite ew_ok by (cbn; congruence). cbn [bind].
  apply (@modes_curl g n m hx hy fx fy _ Hg He); [cbn; exact SY|]. intros p q. cbn [get amap amap2 mesh_x mesh_y nth]. rewrite GX, GY. unfold spectral_curl, two_pi_i. ceq.
Qed.
(* @prop C98 vorticity_space_forcing on a grid with an even last axis: given the vorticity of a velocity (u, v) without divergence and nothing at the highest wave numbers, it calls the forcing once, on that velocity less its mean, as periodic fields at offset (0, 0); and returns an array of the grid's shape that is the curl of the force - every Fourier coefficient below the highest wave numbers is 2 pi i (kx fv^ - ky fu^) - so that it has no mean, whatever the forcing. *)
Lemma vorticity_space_forcing_is_curl_lem : forall (g : grid) (n m : nat) (hx hy : R) (a b : arr R) (u v : Z -> Z -> R) (forcing : list gvar -> result (list garr)) (fx fy : Z -> Z -> R),
  grid2 g n m hx hy -> Nat.Even m -> ends_with n m a u -> ends_with n m b v -> solenoidal n m (INR n * hx) (INR m * hy) u v -> resolved n m u -> resolved n m v ->
  (forall x y, shows n m x (fun i j => u i j - mean2 n m u)%R -> shows n m y (fun i j => v i j - mean2 n m v)%R ->
     exists fu fv, forcing [mkgv (mkga x [0; 0]%Q g) (periodic_bc 2); mkgv (mkga y [0; 0]%Q g) (periodic_bc 2)] = Ok [fu; fv] /\ shows n m (gdata fu) fx /\ shows n m (gdata fv) fy) ->
  exists w r, vorticity_encoder g [a; b] = Ok w /\ vorticity_space_forcing g forcing w = Ok r /\ shp r = [n; m] /\
    curl_of n m (INR n * hx) (INR m * hy) fx fy (fun i j => get r [i; j]) /\ mean2 n m (fun i j => get r [i; j]) = 0%R.
Proof.
  intros g n m hx hy a b u v forcing fx fy Hg He Ha Hb Hs Ru Rv Hf. destruct (@vorticity_round_trip_lem g n m hx hy a b u v Hg He Ha Hb Hs Ru Rv) as (w & x & y & Ew & Ed & Sx & Sy).
  destruct (Hf x y Sx Sy) as (fu & fv & Ef & Fu & Fv). destruct (@forced_decode g n m hx hy w x y forcing fu fv fx fy Hg He Ed Ef Fu Fv) as (r & Er & Sr & Cr).
  exists w, r. split; [exact Ew|]. split; [exact Er|]. split; [exact Sr|]. split; [exact Cr|]. destruct Hg as (_ & _ & Hn & Hm & _). apply (@curl_mean_zero n m (INR n * hx) (INR m * hy) fx fy); assumption.
Qed.
(* @ex *)
Lemma vorticity_space_forcing_is_curl_ex_lem : exists w r, vorticity_encoder ex_grid2 [shear_frames smooth_shear; shear_frames still] = Ok w /\
  vorticity_space_forcing ex_grid2 (fun v => Ok (map (fun x => mkga (amap (fun z => 3 * z)%R (gdata (garray x))) (goff (garray x)) (ggrid (garray x))) v)) w = Ok r /\ shp r = [4%nat; 4%nat].
Proof.
  destruct vorticity_round_trip_ex_lem as (H1 & H2 & H3 & H4 & H5 & H6 & H7 & _).
  destruct (@vorticity_space_forcing_is_curl_lem ex_grid2 4 4 (1/4)%R (1/2)%R (shear_frames smooth_shear) (shear_frames still) smooth_shear still
    (fun v => Ok (map (fun x => mkga (amap (fun z => 3 * z)%R (gdata (garray x))) (goff (garray x)) (ggrid (garray x))) v))
    (fun i j => 3 * (smooth_shear i j - mean2 4 4 smooth_shear))%R (fun i j => 3 * (still i j - mean2 4 4 still))%R) as (w & r & Ew & Er & Sr & _); try assumption.
  - intros x y [Sx Gx] [Sy Gy]. eexists _, _. cbn [map garray gdata goff ggrid]. split; [reflexivity|]. split; (split; [cbn; assumption|]); intros i j Hi Hj; cbn [gdata get amap]; [rewrite Gx | rewrite Gy]; auto.
  - exists w, r. auto.
Qed.
