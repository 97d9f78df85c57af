(** * Vorticity encoders and decoders *)
From Verif Require Import Prelude NdArr LinAlg Cplx Grids_model FastDiag_model FourierProofs FourierLine Spectral_model SpectralProps SpectralUtilProps FourierPlane SpecFourier NS2DBase ArrayUtils_model Rollout_model Networks_model Viscosities_model VortCodec_model SpecVort PRep.
Set Implicit Arguments.
Local Open Scope Z_scope.

Lemma fourier_fft2 n m w p q : fft2 n m (fun i j => RtoC (w i j)) p q = fourier n m w p q.
Proof.
  unfold fft2, fft1, fourier. apply csum_ext. intros i _. rewrite <- csum_scal. apply csum_ext. intros j _. unfold dftm.
  replace (- (2 * PI * (IZR (p * i) / INR n + IZR (q * j) / INR m)))%R with (- (2 * PI * IZR (i * p) / INR n) + - (2 * PI * IZR (j * q) / INR m))%R by (rewrite !mult_IZR; unfold Rdiv; ring).
  rewrite cis_add. ring.
Qed.
Lemma fourier_ext n m w w' a b : (forall i j, 0 <= i < Z.of_nat n -> 0 <= j < Z.of_nat m -> w i j = w' i j) -> fourier n m w a b = fourier n m w' a b.
Proof. intros H. unfold fourier. apply csum_ext. intros i Hi. apply csum_ext. intros j Hj. rewrite H by assumption. reflexivity. Qed.
Lemma fourier_mod n m w a b a' b' : (0 < n)%nat -> (0 < m)%nat -> (a - a') mod Z.of_nat n = 0 -> (b - b') mod Z.of_nat m = 0 -> fourier n m w a b = fourier n m w a' b'.
Proof.
  intros Hn Hm Ha Hb. rewrite <- !fourier_fft2. rewrite <- (@fft2_mod n m _ a b), <- (@fft2_mod n m _ a' b') by assumption.
  f_equal; [apply Z.mod_divide in Ha; [destruct Ha as [k Ha]; replace a with (a' + k * Z.of_nat n) by lia; apply Z_mod_plus_full | lia] | apply Z.mod_divide in Hb; [destruct Hb as [k Hb]; replace b with (b' + k * Z.of_nat m) by lia; apply Z_mod_plus_full | lia]].
Qed.
Lemma fourier_signed n m w p q : (0 < n)%nat -> (0 < m)%nat -> fourier n m w (signed n p) (signed m q) = fourier n m w p q.
Proof.
  intros Hn Hm. apply fourier_mod; auto; unfold signed; zb; try (replace (p - p) with 0 by lia; apply Z.mod_0_l; lia); try (replace (q - q) with 0 by lia; apply Z.mod_0_l; lia);
  [replace (p - Z.of_nat n - p) with ((-1) * Z.of_nat n) by lia | replace (q - Z.of_nat m - q) with ((-1) * Z.of_nat m) by lia]; apply Z.mod_mul; lia.
Qed.
Lemma fourier_signed_l n m w p q : (0 < n)%nat -> (0 < m)%nat -> fourier n m w (signed n p) q = fourier n m w p q.
Proof.
  intros Hn Hm. apply fourier_mod; auto; [|replace (q - q) with 0 by lia; apply Z.mod_0_l; lia]. unfold signed; zb; [replace (p - p) with 0 by lia; apply Z.mod_0_l; lia|].
  replace (p - Z.of_nat n - p) with ((-1) * Z.of_nat n) by lia; apply Z.mod_mul; lia.
Qed.
(** Constant fields have only the mean mode. *)
Lemma fft1_const n c p : 0 <= p < Z.of_nat n -> fft1 n (fun _ => c) p = if p =? 0 then Cscal (INR n) c else C0.
Proof.
  intros Hp. assert (Hn : INR n <> 0%R) by (apply not_0_INR; lia).
  transitivity (fft1 n (ifft1 n (fun k => Cmul (if 0 =? k then C1 else C0) (Cscal (INR n) c))) p).
  - apply fft1_ext. intros j Hj. unfold ifft1.
    transitivity (csum n (fun k => Cmul (if 0 =? k then C1 else C0) (Cmul (idftm n j k) (Cscal (INR n) c)))).
    + rewrite csum_delta by lia. unfold idftm. rewrite Z.mul_0_r. replace (2 * PI * 0 / INR n)%R with 0%R by (unfold Rdiv; ring). rewrite cis_0. apply Ceq; cbn; field; exact Hn.
    + apply csum_ext. intros k _. ring.
  - rewrite fft1_ifft1 by exact Hp. rewrite Z.eqb_sym. destruct (p =? 0); ceq.
Qed.
Lemma fourier_const n m c p q : 0 <= p < Z.of_nat n -> 0 <= q < Z.of_nat m ->
  fourier n m (fun _ _ => c) p q = if (p =? 0) && (q =? 0) then RtoC (INR n * INR m * c) else C0.
Proof.
  intros Hp Hq. rewrite <- fourier_fft2. unfold fft2. transitivity (fft1 n (fun _ => if q =? 0 then Cscal (INR m) (RtoC c) else C0) p).
  - apply fft1_ext. intros i _. apply fft1_const. exact Hq.
  - rewrite fft1_const by exact Hp. destruct (p =? 0), (q =? 0); cbn [andb]; ceq.
Qed.
Lemma fourier_sub n m u w a b : fourier n m (fun i j => u i j - w i j)%R a b = Csub (fourier n m u a b) (fourier n m w a b).
Proof.
  transitivity (Cadd (fourier n m u a b) (Cmul (RtoC (-1)) (fourier n m w a b))); [|destruct (fourier n m u a b), (fourier n m w a b); ceq]. unfold fourier.
  rewrite <- csum_scal, <- csum_plus. apply csum_ext. intros i _. rewrite <- csum_scal, <- csum_plus. apply csum_ext. intros j _. ceq.
Qed.
Lemma csum_RtoC n f : csum n (fun i => RtoC (f i)) = RtoC (rsum n f).
Proof. apply Ceq; [rewrite re_csum; reflexivity | rewrite im_csum; cbn [im RtoC]; apply rsum_0]. Qed.
Lemma fourier_00 n m w : fourier n m w 0 0 = RtoC (rsum n (fun i => rsum m (fun j => w i j))).
Proof. rewrite <- fourier_fft2, fft2_00. unfold csum2. rewrite <- csum_RtoC. apply csum_ext. intros i _. apply csum_RtoC. Qed.
(** Removing the mean removes the mean mode. *)
Lemma fourier_fluctuation n m u p q : 0 <= p < Z.of_nat n -> 0 <= q < Z.of_nat m ->
  fourier n m (fun i j => u i j - mean2 n m u)%R p q = if (p =? 0) && (q =? 0) then C0 else fourier n m u p q.
Proof.
  intros Hp Hq. rewrite (@fourier_sub n m u (fun _ _ => mean2 n m u) p q), fourier_const by assumption. destruct (Z.eqb_spec p 0) as [->|]; [destruct (Z.eqb_spec q 0) as [->|]|]; cbn [andb]; try ceq.
  rewrite fourier_00. unfold mean2. assert (INR n <> 0%R) by (apply not_0_INR; lia). assert (INR m <> 0%R) by (apply not_0_INR; lia). apply Ceq; cbn; [field; auto | ring].
Qed.

(** ** The encoder *)
Lemma slice_last3 a n m w : ends_with n m a w -> exists y, slice_last a = Ok y /\ shows n m y w.
Proof.
  intros (T & S & G). unfold slice_last, slice_along_axis, same_dims, ndim. cbn [forallb negb andb mapM]. rewrite S. cbn [length Nat.eqb].
  unfold normalize_axis. cbn [Z.leb Z.ltb Z.compare Z.of_nat andb Z.opp bind]. unfold index_axis. rewrite S. cbn [nth Z.to_nat]. 
  replace (-1 <? 0) with true by reflexivity. cbv zeta. replace (-1 + Z.of_nat (Datatypes.S T)) with (Z.of_nat T) by lia.
  replace ((0 <=? Z.of_nat T) && (Z.of_nat T <? Z.of_nat (Datatypes.S T))) with true by (symmetry; apply andb_true_intro; split; [apply Z.leb_le | apply Z.ltb_lt]; lia).
  cbn [bind leaf nth_error]. eexists. split; [reflexivity|]. split; [reflexivity|]. intros i j Hi Hj. cbn. apply G; assumption.
Qed.
Lemma rfft2_shows n m y w : (0 < n)%nat -> (0 < m)%nat -> shows n m y w -> exists Y, rfft2 y = Ok Y /\ shp Y = [n; (m / 2 + 1)%nat] /\ forall p q, get Y [p; q] = fourier n m w p q.
Proof.
  intros Hn Hm [S G]. unfold rfft2. rewrite S. destruct (Nat.eqb_spec n 0); [lia|]. destruct (Nat.eqb_spec m 0); [lia|]. cbn [orb]. destruct (@rfftn2 y n m S) as [S2 G2].
  eexists. split; [reflexivity|]. split; [exact S2|]. intros p q. rewrite G2, fourier_fft2. apply fourier_ext. exact G.
Qed.
Lemma encoder_modes g n m hx hy a b u v : grid2 g n m hx hy -> ends_with n m a u -> ends_with n m b v ->
  exists W, spectral_vorticity_encoder g [a; b] = Ok W /\ shp W = [n; (m / 2 + 1)%nat] /\
    forall p q, get W [p; q] = spectral_curl (freq n hx (signed n p)) (freq m hy q) (fourier n m u p q) (fourier n m v p q).
Proof.
  intros Hg Ha Hb. pose proof (rfft_mesh2 Hg) as Em. destruct Hg as (_ & _ & Hn & Hm & Hx & Hy).
  destruct (slice_last3 Ha) as (x & Ex & Sx). destruct (slice_last3 Hb) as (y & Ey & Sy).
  destruct (rfft2_shows Hn Hm Sx) as (X & EX & SX & GX). destruct (rfft2_shows Hn Hm Sy) as (Y & EY & SY & GY).
  unfold spectral_vorticity_encoder. rewrite Ex. cbn [bind]. rewrite Ey. cbn [bind]. rewrite EX. cbn [bind]. rewrite EY. cbn [bind]. rewrite Em.
  rewrite ew_ok by (rewrite SY; reflexivity). cbn [bind]. rewrite ew_ok by (rewrite SX; reflexivity). cbn [bind]. rewrite ew_ok by (cbn; congruence). cbn [bind].
  eexists. split; [reflexivity|]. split; [cbn; exact SY|]. intros p q. cbn [get amap amap2 mesh_x mesh_y nth]. rewrite GX, GY. unfold spectral_curl, two_pi_i. ceq.
Qed.
Lemma irfft2_even U n m : shp U = [n; (m / 2 + 1)%nat] -> (0 < n)%nat -> (0 < m)%nat -> Nat.Even m -> irfft2 U = Ok (irfftn U).
Proof.
  intros S Hn Hm [k E]. unfold irfft2. rewrite S. destruct (Nat.eqb_spec n 0); [lia|]. destruct (Nat.ltb_spec (m / 2 + 1) 2) as [L|L]; [|reflexivity].
  exfalso. subst m. rewrite (Nat.mul_comm 2 k), Nat.div_mul in L by lia. lia.
Qed.
(** The inverse transform of a half spectrum of a real field. *)
Lemma irfft2_half U n m w : (0 < n)%nat -> (0 < m)%nat -> Nat.Even m -> shp U = [n; (m / 2 + 1)%nat] ->
  (forall p q, 0 <= p < Z.of_nat n -> 0 <= q <= Z.of_nat (m / 2) -> get U [p; q] = fourier n m w p q) -> exists x, irfft2 U = Ok x /\ shows n m x w.
Proof.
  intros Hn Hm He S G. rewrite (@irfft2_even U n m S Hn Hm He). destruct (@irfftn2 U n m S Hn Hm He) as [S2 G2]. eexists. split; [reflexivity|]. split; [exact S2|].
  intros i j Hi Hj. assert (E : RtoC (get (irfftn U) [i; j]) = RtoC (w i j)); [|injection E; auto].
  rewrite G2. transitivity (ifft2 n m (fft2 n m (fun i j => RtoC (w i j))) i j); [|apply ifft2_fft2; assumption].
  apply ifft2_ext. intros p q Hp Hq. rewrite <- herm2_real by assumption. apply herm2_ext; auto. intros i' j' Hi' Hj'. rewrite G by assumption. symmetry. apply fourier_fft2.
Qed.
(** Decoding the curl of a solenoidal field. *)
Lemma decode_curl g n m hx hy u v W : grid2 g n m hx hy -> Nat.Even m -> shp W = [n; (m / 2 + 1)%nat] -> solenoidal n m (INR n * hx) (INR m * hy) u v ->
  (forall p q, 0 <= p < Z.of_nat n -> 0 <= q <= Z.of_nat (m / 2) -> get W [p; q] = spectral_curl (freq n hx (signed n p)) (freq m hy q) (fourier n m u p q) (fourier n m v p q)) ->
  exists x y, spectral_vorticity_decoder g W = Ok [x; y] /\ shows n m x (fun i j => u i j - mean2 n m u)%R /\ shows n m y (fun i j => v i j - mean2 n m v)%R.
Proof.
  intros Hg He SW Hs GW. destruct (@vorticity_to_velocity_correct_lem g n m hx hy W Hg SW) as (U & V & EV & SU & SV & U0 & V0 & H).
  destruct Hg as (_ & _ & Hn & Hm & Hx & Hy). rewrite SW in SU, SV.
  assert (Q : forall q, 0 <= q <= Z.of_nat (m / 2) -> 0 <= q < Z.of_nat m) by (intros q Hq; apply half_range in Hq; lia).
  assert (D : forall p q, 0 <= p < Z.of_nat n -> 0 <= q <= Z.of_nat (m / 2) -> spectral_div (freq n hx (signed n p)) (freq m hy q) (fourier n m u p q) (fourier n m v p q) = C0).
  { intros p q Hp Hq. unfold spectral_div, freq. rewrite <- (@fourier_signed_l n m u p q), <- (@fourier_signed_l n m v p q) by assumption. rewrite Hs; [ceq | unfold signed; zb; lia | apply half_range; exact Hq]. }
  assert (M : forall p q, 0 <= p < Z.of_nat n -> 0 <= q <= Z.of_nat (m / 2) -> p <> 0 \/ q <> 0 -> fourier n m u p q = get U [p; q] /\ fourier n m v p q = get V [p; q]).
  { intros p q Hp Hq N. destruct (H p q Hp Hq) as [_ H2]. destruct (H2 N) as [_ H3]. apply H3; [apply D; assumption | symmetry; apply GW; assumption]. }
  unfold spectral_vorticity_decoder. rewrite EV. cbn [bind fst snd].
  assert (F : forall w Y, get Y [0; 0] = C0 -> shp Y = [n; (m / 2 + 1)%nat] -> (forall p q, 0 <= p < Z.of_nat n -> 0 <= q <= Z.of_nat (m / 2) -> p <> 0 \/ q <> 0 -> fourier n m w p q = get Y [p; q]) ->
     exists x, irfft2 Y = Ok x /\ shows n m x (fun i j => w i j - mean2 n m w)%R).
  { intros w Y Y0 SY HY. apply irfft2_half; auto. intros p q Hp Hq. rewrite fourier_fluctuation by auto. destruct (Z.eqb_spec p 0) as [->|]; [destruct (Z.eqb_spec q 0) as [->|]|]; cbn [andb]; [exact Y0 | |]; symmetry; apply HY; auto. }
  destruct (F u U U0 SU) as (x & Ex & Hx'); [intros; apply M; assumption|]. destruct (F v V V0 SV) as (y & Ey & Hy'); [intros; apply M; assumption|].
  rewrite Ex. cbn [bind]. rewrite Ey. cbn [bind]. exists x, y. auto.
Qed.
(* @prop C70 Spectral codec: for every grid with an even number of points on its last axis, every pair of trajectories whose last frames form a velocity without divergence (at every stored wave vector), spectral_vorticity_decoder(spectral_vorticity_encoder((u, v))) returns the last frames minus their mean values, exactly; only the mean flow is lost. *)
Lemma spectral_vorticity_round_trip_lem : forall (g : grid) (n m : nat) (hx hy : R) (a b : arr R) (u v : Z -> Z -> R),
  grid2 g n m hx hy -> Nat.Even m -> ends_with n m a u -> ends_with n m b v -> solenoidal n m (INR n * hx) (INR m * hy) u v ->
  exists W x y, spectral_vorticity_encoder g [a; b] = Ok W /\ shp W = [n; (m / 2 + 1)%nat] /\ spectral_vorticity_decoder g W = Ok [x; y] /\
    shows n m x (fun i j => u i j - mean2 n m u)%R /\ shows n m y (fun i j => v i j - mean2 n m v)%R.
Proof.
  intros g n m hx hy a b u v Hg He Ha Hb Hs. destruct (encoder_modes Hg Ha Hb) as (W & EW & SW & GW).
  destruct (@decode_curl g n m hx hy u v W Hg He SW Hs) as (x & y & E & Sx & Sy); [intros; apply GW|]. exists W, x, y. auto.
Qed.
(** A shear flow: u depends on y only, v vanishes. *)
Definition shear_u (i j : Z) : R := (IZR j ^ 2 - 1)%R.
Definition still (i j : Z) : R := 0%R.
Definition shear_frames (w : Z -> Z -> R) : arr R := mkarr [3%nat; 4%nat; 4%nat] (fun ix => (w (nth 1 ix 0%Z) (nth 2 ix 0%Z) + IZR (nth 0 ix 0%Z - 2))%R).
Lemma shear_ends w : ends_with 4 4 (shear_frames w) w.
Proof. exists 2%nat. split; [reflexivity|]. intros i j _ _. unfold shear_frames. cbn [get nth]. change (Z.of_nat 2 - 2) with 0. ring. Qed.
Lemma fourier_still n m a b : fourier n m still a b = C0.
Proof. unfold fourier. apply csum_zero. intros i _. apply csum_zero. intros j _. unfold still. ceq. Qed.
Lemma fourier_shear n m (f : Z -> R) p q : 0 <= p < Z.of_nat n -> p <> 0 -> fourier n m (fun _ j => f j) p q = C0.
Proof. intros Hp N. rewrite <- fourier_fft2. unfold fft2. rewrite fft1_const by exact Hp. destruct (Z.eqb_spec p 0); [lia | reflexivity]. Qed.
Lemma shear_solenoidal n m Lx Ly f : (0 < n)%nat -> (0 < m)%nat -> solenoidal n m Lx Ly (fun _ j => f j) still.
Proof.
  intros Hn Hm a b Ha Hb. rewrite fourier_still. destruct (Z.eq_dec a 0) as [->|N]; [unfold Rdiv; ceq|].
  rewrite (@fourier_mod n m _ a b (a mod Z.of_nat n) b); auto; [| |replace (b - b) with 0 by lia; apply Z.mod_0_l; lia].
  - rewrite fourier_shear; [ceq | apply Z.mod_pos_bound; lia |]. intros E. apply N. apply Z.mod_divide in E; [|lia]. destruct E as [k E]. assert (k = 0) by nia. lia.
  - rewrite Zminus_mod_idemp_r. replace (a - a) with 0 by lia. apply Z.mod_0_l. lia.
Qed.
(* @ex *)
Lemma spectral_vorticity_round_trip_ex_lem : grid2 ex_grid2 4 4 (1/4) (1/2) /\ Nat.Even 4 /\ ends_with 4 4 (shear_frames shear_u) shear_u /\ ends_with 4 4 (shear_frames still) still /\
  solenoidal 4 4 (INR 4 * (1/4)) (INR 4 * (1/2)) shear_u still /\ shear_u 0 2 = 3%R.
Proof.
  split; [apply ex_grid2_ok|]. split; [exists 2%nat; reflexivity|]. split; [apply shear_ends|]. split; [apply shear_ends|]. split; [|unfold shear_u; lra].
  apply (@shear_solenoidal 4 4 _ _ (fun j => IZR j ^ 2 - 1)%R); lia.
Qed.

(** ** Vorticity in physical space *)
Lemma fourier_neg n m w p q : (0 < n)%nat -> (0 < m)%nat -> 0 <= p < Z.of_nat n -> 0 <= q < Z.of_nat m ->
  (fourier n m w (nneg n p) (if q =? 0 then 0 else Z.of_nat m - q)) = Cconj (fourier n m w p q).
Proof.
  intros Hn Hm Hp Hq. rewrite <- (@fourier_fft2 n m w p q), <- fft2_real_neg by assumption. rewrite fourier_fft2. f_equal.
  unfold nneg. destruct (Z.eqb_spec q 0) as [->|]; [symmetry; apply Z.mod_0_l; lia|]. apply Z.mod_unique with (q := -1); lia.
Qed.
Lemma spectral_curl_neg kx ky a b : Cconj (spectral_curl (- kx) (- ky) (Cconj a) (Cconj b)) = spectral_curl kx ky a b.
Proof. unfold spectral_curl. destruct a, b. ceq. Qed.
Lemma curl_modes n m hx hy u v p q : (0 < n)%nat -> (0 < m)%nat -> 0 <= p < Z.of_nat n -> 0 <= q < Z.of_nat m -> 2 * p <> Z.of_nat n -> 2 * q <> Z.of_nat m ->
  herm2 n m (fun p q => spectral_curl (freq n hx (signed n p)) (freq m hy q) (fourier n m u p q) (fourier n m v p q)) p q =
  spectral_curl (freq n hx (signed n p)) (freq m hy (signed m q)) (fourier n m u p q) (fourier n m v p q).
Proof.
  intros Hn Hm Hp Hq Np Nq. pose proof (@fourier_neg n m u p q Hn Hm Hp Hq) as Eu. pose proof (@fourier_neg n m v p q Hn Hm Hp Hq) as Ev.
  unfold herm2. rewrite signed_neg by assumption. rewrite freq_neg. destruct (Z.eqb_spec q 0) as [->|Hq0].
  - rewrite Eu, Ev. replace (signed m 0) with 0 by (unfold signed; zb; lia).
    pose proof (@spectral_curl_neg (freq n hx (signed n p)) (freq m hy 0) (fourier n m u p 0) (fourier n m v p 0)) as E. replace (- freq m hy 0)%R with (freq m hy 0) in E by (unfold freq, Rdiv; ring). rewrite E.
    destruct (spectral_curl _ _ _ _). apply Ceq; cbn; field.
  - destruct (Z.ltb_spec (2 * q) (Z.of_nat m)) as [L|L]; [replace (signed m q) with q by (unfold signed; zb; lia); reflexivity|].
    destruct (Z.eqb_spec (2 * q) (Z.of_nat m)) as [L2|L2]; [lia|]. rewrite Eu, Ev. replace (signed m q) with (- (Z.of_nat m - q)) by (unfold signed; zb; lia). rewrite freq_neg.
    rewrite <- (@spectral_curl_neg (freq n hx (signed n p))). rewrite Ropp_involutive. reflexivity.
Qed.
Lemma encoded_vorticity g n m hx hy a b u v : grid2 g n m hx hy -> Nat.Even m -> ends_with n m a u -> ends_with n m b v ->
  exists W x, spectral_vorticity_encoder g [a; b] = Ok W /\ irfft2 W = Ok x /\ shp x = [n; m] /\
    forall p q, 0 <= p < Z.of_nat n -> 0 <= q < Z.of_nat m ->
      fourier n m (fun i j => get x [i; j]) p q = herm2 n m (fun p q => spectral_curl (freq n hx (signed n p)) (freq m hy q) (fourier n m u p q) (fourier n m v p q)) p q.
Proof.
  intros Hg He Ha Hb. destruct (encoder_modes Hg Ha Hb) as (W & EW & SW & GW). destruct Hg as (_ & _ & Hn & Hm & Hx & Hy).
  destruct (@irfftn2 W n m SW Hn Hm He) as [S2 G2]. exists W, (irfftn W). split; [exact EW|]. split; [apply (@irfft2_even W n m SW Hn Hm He)|]. split; [exact S2|].
  intros p q Hp Hq. rewrite <- fourier_fft2. transitivity (fft2 n m (ifft2 n m (herm2 n m (fun p q => get W [p; q]))) p q); [apply fft2_ext; intros; apply G2|].
  rewrite fft2_ifft2 by assumption. apply herm2_ext; auto.
Qed.
Lemma signed_mod n a : (0 < n)%nat -> 2 * Z.abs a < Z.of_nat n -> signed n (a mod Z.of_nat n) = a.
Proof.
  intros Hn Ha. destruct (Z.neg_nonneg_cases a) as [H|H].
  - replace (a mod Z.of_nat n) with (a + Z.of_nat n) by (apply Z.mod_unique with (q := -1); lia). unfold signed. zb; lia.
  - rewrite Z.mod_small by lia. unfold signed. zb; lia.
Qed.
Lemma mod_diff n a : (0 < n)%nat -> (a - a mod Z.of_nat n) mod Z.of_nat n = 0.
Proof. intros Hn. rewrite Zminus_mod_idemp_r. replace (a - a) with 0 by lia. apply Z.mod_0_l. lia. Qed.
Lemma encoded_curl g n m hx hy a b u v : grid2 g n m hx hy -> Nat.Even m -> ends_with n m a u -> ends_with n m b v ->
  exists W x, spectral_vorticity_encoder g [a; b] = Ok W /\ irfft2 W = Ok x /\ shp x = [n; m] /\
    curl_of n m (INR n * hx) (INR m * hy) u v (fun i j => get x [i; j]).
Proof.
  intros Hg He Ha Hb. destruct (encoded_vorticity Hg He Ha Hb) as (W & x & EW & Ex & Sx & G). exists W, x. split; [exact EW|]. split; [exact Ex|]. split; [exact Sx|].
  destruct Hg as (_ & _ & Hn & Hm & Hx & Hy). intros a' b' Ha' Hb'. pose proof (@mod_diff n a' Hn) as Da. pose proof (@mod_diff m b' Hm) as Db.
  assert (Ra : 0 <= a' mod Z.of_nat n < Z.of_nat n) by (apply Z.mod_pos_bound; lia). assert (Rb : 0 <= b' mod Z.of_nat m < Z.of_nat m) by (apply Z.mod_pos_bound; lia).
  pose proof (@signed_mod n a' Hn Ha') as Sa. pose proof (@signed_mod m b' Hm Hb') as Sb.
  rewrite !(@fourier_mod n m _ a' b' (a' mod Z.of_nat n) (b' mod Z.of_nat m)) by assumption. rewrite G by assumption. rewrite curl_modes; auto.
  - unfold spectral_curl, freq. rewrite Sa, Sb. reflexivity.
  - intros E. unfold signed in Sa. destruct (Z.ltb_spec (2 * (a' mod Z.of_nat n)) (Z.of_nat n)); lia.
  - intros E. unfold signed in Sb. destruct (Z.ltb_spec (2 * (b' mod Z.of_nat m)) (Z.of_nat m)); lia.
Qed.
(* @prop C70 Vorticity in physical space: for every grid with an even last axis and every pair of trajectories, vorticity_encoder returns one channel that is the curl dv/dx - du/dy of the last frames - every Fourier coefficient below the highest wave numbers is 2 pi i (kx v^ - ky u^) - so its mean is zero; vorticity_velocity_encoder returns the last frames of u and v and that same vorticity, in this order, as three channels. *)
Lemma vorticity_encoder_is_curl_lem : forall (g : grid) (n m : nat) (hx hy : R) (a b : arr R) (u v : Z -> Z -> R),
  grid2 g n m hx hy -> Nat.Even m -> ends_with n m a u -> ends_with n m b v ->
  exists w y z, vorticity_encoder g [a; b] = Ok y /\ vorticity_velocity_encoder g [a; b] = Ok z /\ shp y = [n; m; 1%nat] /\ shp z = [n; m; 3%nat] /\
    curl_of n m (INR n * hx) (INR m * hy) u v w /\ mean2 n m w = 0%R /\
    forall i j, 0 <= i < Z.of_nat n -> 0 <= j < Z.of_nat m ->
      get y [i; j; 0] = w i j /\ get z [i; j; 0] = u i j /\ get z [i; j; 1] = v i j /\ get z [i; j; 2] = w i j.
Proof.
  intros g n m hx hy a b u v Hg He Ha Hb. destruct (encoded_curl Hg He Ha Hb) as (W & x & EW & Ex & Sx & G).
  destruct (slice_last3 Ha) as (u' & Eu & Su & Gu). destruct (slice_last3 Hb) as (v' & Ev & Sv & Gv).
  exists (fun i j => get x [i; j]). unfold vorticity_encoder, vorticity_velocity_encoder. rewrite EW. cbn [bind]. rewrite Ex. cbn [bind]. rewrite Eu. cbn [bind]. rewrite Ev. cbn [bind].
  assert (HS : exists z, stack_last [u'; v'; x] = Ok z /\ shp z = [n; m; 3%nat] /\ forall i j, get z [i; j; 0] = get u' [i; j] /\ get z [i; j; 1] = get v' [i; j] /\ get z [i; j; 2] = get x [i; j]).
  { unfold stack_last. cbn [forallb]. rewrite Su, Sv, Sx. rewrite shape_eqb_refl. cbn [andb]. eexists. split; [reflexivity|]. split; [reflexivity|]. intros i j. split; [reflexivity|]. split; reflexivity. }
  destruct HS as (z & Ez & Sz & Gz). exists (expand_last x), z. split; [reflexivity|]. split; [exact Ez|]. split; [unfold expand_last; cbn [shp]; rewrite Sx; reflexivity|]. split; [exact Sz|]. split; [exact G|]. split.
  - destruct Hg as (_ & _ & Hn & Hm & Hx & Hy). pose proof (G 0 0 ltac:(lia) ltac:(lia)) as E. rewrite fourier_00 in E. unfold mean2.
    assert (E0 : rsum n (fun i => rsum m (fun j => get x [i; j])) = 0%R); [|rewrite E0; unfold Rdiv; ring].
    apply (f_equal re) in E. cbn [re RtoC] in E. rewrite E. unfold Rdiv. destruct (fourier n m v 0 0), (fourier n m u 0 0). cbn. ring.
  - intros i j Hi Hj. destruct (Gz i j) as (G1 & G2 & G3). rewrite G1, G2, G3, Gu, Gv by assumption. repeat split.
Qed.
(* @ex *)
Lemma vorticity_encoder_is_curl_ex_lem : grid2 ex_grid2 4 4 (1/4) (1/2) /\ Nat.Even 4 /\ ends_with 4 4 (shear_frames shear_u) shear_u /\ ends_with 4 4 (shear_frames still) still.
Proof. split; [apply ex_grid2_ok|]. split; [exists 2%nat; reflexivity|]. split; apply shear_ends. Qed.
(* @prop C70 Physical codec: when the last frames have no divergence and nothing at the highest wave numbers, vorticity_decoder(vorticity_encoder((u, v))) returns the last frames minus their mean values, exactly. *)
Lemma vorticity_round_trip_lem : forall (g : grid) (n m : nat) (hx hy : R) (a b : arr R) (u v : Z -> Z -> R),
  grid2 g n m hx hy -> Nat.Even m -> ends_with n m a u -> ends_with n m b v -> solenoidal n m (INR n * hx) (INR m * hy) u v -> resolved n m u -> resolved n m v ->
  exists w x y, vorticity_encoder g [a; b] = Ok w /\ vorticity_decoder g w = Ok [x; y] /\
    shows n m x (fun i j => u i j - mean2 n m u)%R /\ shows n m y (fun i j => v i j - mean2 n m v)%R.
Proof.
  intros g n m hx hy a b u v Hg He Ha Hb Hs Ru Rv. destruct (encoded_vorticity Hg He Ha Hb) as (W & w & EW & Ew & Sw & G). pose proof Hg as (_ & _ & Hn & Hm & Hx & Hy).
  unfold vorticity_encoder. rewrite EW. cbn [bind]. rewrite Ew. cbn [bind]. exists (expand_last w).
  unfold vorticity_decoder, squeeze_last, expand_last. cbn [shp]. rewrite Sw. cbn [app last removelast Nat.eqb bind get].
  match goal with |- context [rfft2 ?z] => set (w' := z) end.
  assert (Hw : shows n m w' (fun i j => get w [i; j])) by (split; [reflexivity|]; intros i j _ _; reflexivity).
  destruct (rfft2_shows Hn Hm Hw) as (Y & EY & SY & GY). rewrite EY. cbn [bind].
  assert (NU : forall f, resolved n m f -> forall p q, 0 <= p < Z.of_nat n -> 0 <= q < Z.of_nat m -> 2 * p = Z.of_nat n \/ 2 * q = Z.of_nat m -> fourier n m f p q = C0).
  { intros f Hf p q Hp Hq N. apply Hf. destruct N; [left | right]; rewrite Z.abs_eq; lia. }
  destruct (@decode_curl g n m hx hy u v Y Hg He SY Hs) as (x & y & E & X1 & X2); [|exists x, y; auto].
  intros p q Hp Hq. rewrite GY. assert (Hq' : 0 <= 2 * q <= Z.of_nat m) by (apply half_range; exact Hq). assert (Hq'' : 0 <= q < Z.of_nat m) by lia. rewrite G by assumption.
  assert (Z0 : forall kx ky, spectral_curl kx ky C0 C0 = C0) by (intros; unfold spectral_curl; ceq).
  destruct (Z.eq_dec (2 * p) (Z.of_nat n)) as [N1|N1]; [|destruct (Z.eq_dec (2 * q) (Z.of_nat m)) as [N2|N2]].
  1, 2: rewrite (NU u Ru p q), (NU v Rv p q), Z0 by auto; apply herm2_nyquist; auto; intros p' q' Hp' Hq1 N; assert (0 <= q' < Z.of_nat m) by lia; rewrite (NU u Ru p' q'), (NU v Rv p' q') by auto; apply Z0.
  rewrite curl_modes by assumption. replace (signed m q) with q by (unfold signed; zb; lia). reflexivity.
Qed.
(** A shear flow without the highest wave number. *)
Definition smooth_shear (i j : Z) : R := match j with 0 => 1 | 1 => 3 | 2 => 2 | _ => 0 end%R.
(* @ex *)
Lemma vorticity_round_trip_ex_lem : grid2 ex_grid2 4 4 (1/4) (1/2) /\ Nat.Even 4 /\ ends_with 4 4 (shear_frames smooth_shear) smooth_shear /\ ends_with 4 4 (shear_frames still) still /\
  solenoidal 4 4 (INR 4 * (1/4)) (INR 4 * (1/2)) smooth_shear still /\ resolved 4 4 smooth_shear /\ resolved 4 4 still /\ smooth_shear 0 1 = 3%R.
Proof.
  split; [apply ex_grid2_ok|]. split; [exists 2%nat; reflexivity|]. split; [apply shear_ends|]. split; [apply shear_ends|].
  split; [apply (@shear_solenoidal 4 4 _ _ (fun j => smooth_shear 0 j)); lia|]. split; [|split; [intros a b _; apply fourier_still | reflexivity]].
  intros a b N. rewrite (@fourier_mod 4 4 _ a b (a mod 4) (b mod 4)); [|lia|lia|apply (@mod_diff 4); lia|apply (@mod_diff 4); lia].
  destruct (Z.eq_dec (a mod 4) 0) as [E|E]; [|apply (@fourier_shear 4 4 (fun j => smooth_shear 0 j)); [apply Z.mod_pos_bound; lia | exact E]].
  assert (Eb : b mod 4 = 2).
  { destruct N as [N|N]; [exfalso; destruct (Z.abs_eq_or_opp a) as [A|A]; rewrite A in N; [replace a with 2 in E by lia | replace a with (-2) in E by lia]; discriminate E|].
    destruct (Z.abs_eq_or_opp b) as [A|A]; rewrite A in N; [replace b with 2 by lia | replace b with (-2) by lia]; reflexivity. }
  rewrite E, Eb. rewrite <- fourier_fft2. unfold fft2. transitivity (fft1 4 (fun _ => C0) 0); [|rewrite fft1_const by lia; ceq]. apply fft1_ext. intros i _.
  unfold fft1, csum. cbn. unfold dftm. cbn [Z.mul Pos.mul]. replace (2 * PI * 0 / INR 4)%R with 0%R by (unfold Rdiv; ring).
  replace (2 * PI * 2 / INR 4)%R with PI by (cbn; field). replace (2 * PI * 4 / INR 4)%R with (2 * PI)%R by (cbn; field).
  unfold cis. rewrite !cos_neg, !sin_neg. rewrite cos_0, sin_0, cos_PI, sin_PI, cos_2PI, sin_2PI. apply Ceq; cbn; ring.
Qed.
