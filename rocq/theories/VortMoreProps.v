(** * Decoding then encoding vorticity; spectral downsampling *)
From Verif Require Import Prelude NdArr LinAlg Cplx Grids_model FastDiag_model FourierProofs FourierLine Spectral_model SpectralProps SpectralUtilProps SpectralPadProps FourierPlane SpecFourier NS2DBase ArrayUtils_model Rollout_model Networks_model Viscosities_model VortCodec_model SpecVort PRep VortProps.
Set Implicit Arguments.
Local Open Scope Z_scope.

(* @prop C70 The other way round: for every grid with an even last axis and every stored spectrum of a real field of zero mean with nothing at the highest wave numbers, the velocity made by spectral_vorticity_decoder lives on the grid and has no mean and no divergence, and spectral_vorticity_encoder of any trajectories that end with it gives the spectrum back, mode by mode. *)
Lemma spectral_decode_encode_lem : forall (g : grid) (n m : nat) (hx hy : R) (W : arr cplx) (w : Z -> Z -> R),
  grid2 g n m hx hy -> Nat.Even m -> half_spectrum n m W w -> resolved n m w -> mean2 n m w = 0%R ->
  exists x y u v, spectral_vorticity_decoder g W = Ok [x; y] /\ shows n m x u /\ shows n m y v /\ mean2 n m u = 0%R /\ mean2 n m v = 0%R /\
    solenoidal n m (INR n * hx) (INR m * hy) u v /\
    forall a b, ends_with n m a u -> ends_with n m b v -> exists W', spectral_vorticity_encoder g [a; b] = Ok W' /\ half_spectrum n m W' w.
Proof.
  intros g n m hx hy W w Hg He [SW GW] Rw Mw. destruct (@vorticity_to_velocity_correct_lem g n m hx hy W Hg SW) as (U & V & EV & SU & SV & U0 & V0 & H).
  destruct (@velocity_symbols g n m hx hy W Hg SW) as (U' & V' & EV' & _ & _ & GUV). rewrite EV in EV'. injection EV' as <- <-.
  pose proof Hg as (_ & _ & Hn & Hm & Hx & Hy). rewrite SW in SU, SV.
  assert (GW' : forall p q, 0 <= p < Z.of_nat n -> 0 <= q <= Z.of_nat (m / 2) -> get W [p; q] = fourier n m w p q).
  { intros p q Hp Hq. rewrite GW by assumption. rewrite row_wave_signed. apply fourier_signed_l; assumption. }
  assert (NN : no_nyquist n m (fun p q => get W [p; q])).
  { intros p q Hp Hq N. rewrite GW' by (try apply half_range; assumption). apply Rw. destruct N; [left | right]; rewrite Z.abs_eq; lia. }
  assert (HH : forall p q, 0 <= p < Z.of_nat n -> 0 <= q < Z.of_nat m -> herm2 n m (fun p q => get W [p; q]) p q = fourier n m w p q).
  { intros p q Hp Hq. rewrite <- fourier_fft2, <- herm2_real by assumption. apply herm2_ext; auto. intros; rewrite fourier_fft2; apply GW'; assumption. }
  destruct (@field_symbol n m U W (uxs n m hx hy) SU Hn Hm He NN (@uxs_neg _ _ _ _)) as [SX GX]; [intros; apply GUV; assumption|].
  destruct (@field_symbol n m V W (uys n m hx hy) SV Hn Hm He NN (@uys_neg _ _ _ _)) as [SY GY]; [intros; apply GUV; assumption|].
  exists (irfftn U), (irfftn V), (fun i j => get (irfftn U) [i; j]), (fun i j => get (irfftn V) [i; j]).
  unfold spectral_vorticity_decoder. rewrite EV. cbn [bind fst snd]. rewrite (@irfft2_even U n m SU Hn Hm He). cbn [bind]. rewrite (@irfft2_even V n m SV Hn Hm He). cbn [bind].
  split; [reflexivity|]. split; [split; [exact SX | reflexivity]|]. split; [split; [exact SY | reflexivity]|].
  assert (FX : forall p q, 0 <= p < Z.of_nat n -> 0 <= q < Z.of_nat m -> fourier n m (fun i j => get (irfftn U) [i; j]) p q = Cmul (uxs n m hx hy (signed n p) (signed m q)) (fourier n m w p q)).
  { intros p q Hp Hq. rewrite <- fourier_fft2. transitivity (fft2 n m (ifft2 n m (fun p q => Cmul (uxs n m hx hy (signed n p) (signed m q)) (herm2 n m (fun p q => get W [p; q]) p q))) p q); [apply fft2_ext; intros; apply GX|].
    rewrite fft2_ifft2 by assumption. rewrite HH by assumption. reflexivity. }
  assert (FY : forall p q, 0 <= p < Z.of_nat n -> 0 <= q < Z.of_nat m -> fourier n m (fun i j => get (irfftn V) [i; j]) p q = Cmul (uys n m hx hy (signed n p) (signed m q)) (fourier n m w p q)).
  { intros p q Hp Hq. rewrite <- fourier_fft2. transitivity (fft2 n m (ifft2 n m (fun p q => Cmul (uys n m hx hy (signed n p) (signed m q)) (herm2 n m (fun p q => get W [p; q]) p q))) p q); [apply fft2_ext; intros; apply GY|].
    rewrite fft2_ifft2 by assumption. rewrite HH by assumption. reflexivity. }
  assert (W0 : fourier n m w 0 0 = C0).
  { rewrite fourier_00. assert (INR n <> 0%R) by (apply not_0_INR; lia). assert (INR m <> 0%R) by (apply not_0_INR; lia). unfold mean2 in Mw.
    replace (rsum n (fun i => rsum m (fun j => w i j))) with 0%R; [reflexivity|]. symmetry. transitivity (rsum n (fun i => rsum m (fun j => w i j)) / (INR n * INR m) * (INR n * INR m))%R; [field; auto|]. rewrite Mw. ring. }
  (* stored modes *)
  assert (ST : forall p q, 0 <= p < Z.of_nat n -> 0 <= q <= Z.of_nat (m / 2) ->
     2 * q < Z.of_nat m /\ fourier n m (fun i j => get (irfftn U) [i; j]) p q = get U [p; q] /\ fourier n m (fun i j => get (irfftn V) [i; j]) p q = get V [p; q] \/
     fourier n m w p q = C0 /\ fourier n m (fun i j => get (irfftn U) [i; j]) p q = C0 /\ fourier n m (fun i j => get (irfftn V) [i; j]) p q = C0).
  { intros p q Hp Hq. assert (Hq' : 0 <= 2 * q <= Z.of_nat m) by (apply half_range; exact Hq). rewrite FX, FY by lia.
    destruct (Z.eq_dec (2 * q) (Z.of_nat m)) as [N|N].
    - right. assert (E0 : fourier n m w p q = C0) by (apply Rw; right; rewrite Z.abs_eq; lia). rewrite E0. split; [reflexivity|]. split; ceq.
    - left. split; [lia|]. replace (signed m q) with q by (unfold signed; zb; lia). destruct (GUV p q Hp Hq) as [E1 E2]. rewrite E1, E2, GW' by assumption. auto. }
  assert (M0 : forall f, fourier n m f 0 0 = C0 -> mean2 n m f = 0%R).
  { intros f E. rewrite fourier_00 in E. injection E as E. unfold mean2. rewrite E. unfold Rdiv. ring. }
  split; [|split; [|split]].
  - apply M0. destruct (ST 0 0) as [(_ & E & _)|(_ & E & _)]; try lia; congruence.
  - apply M0. destruct (ST 0 0) as [(_ & _ & E)|(_ & _ & E)]; try lia; congruence.
  - intros a b Ha Hb. set (p := a mod Z.of_nat n). assert (Hp : 0 <= p < Z.of_nat n) by (apply Z.mod_pos_bound; lia).
    assert (Sp : signed n p = a). { unfold p. destruct (Z.neg_nonneg_cases a); [replace (a mod Z.of_nat n) with (a + Z.of_nat n) by (apply Z.mod_unique with (q := -1); lia) | rewrite Z.mod_small by lia]; unfold signed; zb; lia. }
    assert (D0 : (b - b) mod Z.of_nat m = 0) by (replace (b - b) with 0 by lia; apply Z.mod_0_l; lia).
    rewrite !(@fourier_mod n m _ a b p b) by (try apply mod_diff; assumption). apply half_range in Hb. destruct (H p b Hp Hb) as [HD _].
    destruct (ST p b Hp Hb) as [(_ & E1 & E2)|(_ & E1 & E2)]; rewrite E1, E2; [|ceq]. unfold spectral_div, freq in HD. rewrite Sp in HD.
    set (z := Cadd _ _) in *. assert (HP : PI <> 0%R) by apply PI_neq0. destruct z as [zr zi]. apply Ceq; [apply (f_equal im) in HD | apply (f_equal re) in HD]; cbn in HD |- *; nra.
  - intros a b Ha Hb. destruct (encoder_modes Hg Ha Hb) as (W' & EW' & SW' & GW2). exists W'. split; [exact EW'|]. split; [exact SW'|]. intros p q Hp Hq. rewrite GW2, <- GW by assumption.
    destruct (ST p q Hp Hq) as [(Hq2 & E1 & E2)|(E0 & E1 & E2)]; rewrite E1, E2.
    + destruct (Z.eq_dec p 0) as [->|N]; [destruct (Z.eq_dec q 0) as [->|N]|].
      * rewrite U0, V0, GW' by assumption. rewrite W0. unfold spectral_curl. ceq.
      * destruct (H 0 q Hp Hq) as [_ H2]. apply H2. right. exact N.
      * destruct (H p q Hp Hq) as [_ H2]. apply H2. left. exact N.
    + rewrite GW', E0 by assumption. unfold spectral_curl. ceq.
Qed.
Lemma shear_resolved (f : Z -> R) : (f 0%Z - f 1%Z + f 2%Z - f 3%Z = 0)%R -> resolved 4 4 (fun _ j => f j).
Proof.
  intros Hf a b N. rewrite (@fourier_mod 4 4 _ a b (a mod 4) (b mod 4)); [|lia|lia|apply (@mod_diff 4); lia|apply (@mod_diff 4); lia].
  destruct (Z.eq_dec (a mod 4) 0) as [E|E]; [|apply (@fourier_shear 4 4 f); [apply Z.mod_pos_bound; lia | exact E]].
  assert (Eb : b mod 4 = 2).
  { destruct N as [N|N]; [exfalso; destruct (Z.abs_eq_or_opp a) as [A|A]; rewrite A in N; [replace a with 2 in E by lia | replace a with (-2) in E by lia]; discriminate E|].
    destruct (Z.abs_eq_or_opp b) as [A|A]; rewrite A in N; [replace b with 2 by lia | replace b with (-2) by lia]; reflexivity. }
  rewrite E, Eb. rewrite <- fourier_fft2. unfold fft2. transitivity (fft1 4 (fun _ => C0) 0); [|rewrite fft1_const by lia; ceq]. apply fft1_ext. intros i _.
  unfold fft1, csum. cbn -[INR IZR Pos.add]. unfold dftm. cbn -[INR IZR]. replace (2 * PI * 0 / INR 4)%R with 0%R by (unfold Rdiv; ring). 
  replace (2 * PI * 2 / INR 4)%R with PI by (cbn; field). replace (2 * PI * 4 / INR 4)%R with (2 * PI)%R by (cbn; field).
  replace (2 * PI * 6 / INR 4)%R with (2 * PI + PI)%R by (cbn; field). unfold cis. rewrite !cos_neg, !sin_neg, neg_cos, neg_sin, cos_0, sin_0, cos_PI, sin_PI, cos_2PI, sin_2PI. apply Ceq; cbn; lra.
Qed.
Definition wavy (i j : Z) : R := match j with 0 => 1 | 1 => 2 | 2 => -1 | _ => -2 end%R.
Definition wavy_spectrum : arr cplx := mkarr [4%nat; 3%nat] (fun ix => fourier 4 4 wavy (row_wave 4 (nth 0 ix 0)) (nth 1 ix 0)).
(* @ex *)
Lemma spectral_decode_encode_ex_lem : grid2 ex_grid2 4 4 (1/4) (1/2) /\ Nat.Even 4 /\ half_spectrum 4 4 wavy_spectrum wavy /\ resolved 4 4 wavy /\ mean2 4 4 wavy = 0%R /\ wavy 0 1 = 2%R.
Proof.
  split; [apply ex_grid2_ok|]. split; [exists 2%nat; reflexivity|]. split; [split; [reflexivity | intros; reflexivity]|]. split; [apply (@shear_resolved (wavy 0)); unfold wavy; lra|]. split; [unfold mean2; cbn; lra | reflexivity].
Qed.
(* @prop C70 Limit of both codecs: when the last axis has an odd number m >= 3 of points, decoding any spectrum of the grid succeeds but gives velocities with only m - 1 points on that axis, because irfft2 is not told the length; the codec needs an even last axis. *)
Lemma vorticity_decoder_odd_axis_refuted_lem : forall (g : grid) (n m : nat) (hx hy : R) (W : arr cplx),
  grid2 g n m hx hy -> Nat.Odd m -> (3 <= m)%nat -> shp W = [n; (m / 2 + 1)%nat] ->
  exists x y, spectral_vorticity_decoder g W = Ok [x; y] /\ shp x = [n; (m - 1)%nat] /\ shp y = [n; (m - 1)%nat] /\ shp x <> gshape g.
Proof.
  intros g n m hx hy W Hg [k Ek] H3 SW. destruct (@velocity_symbols g n m hx hy W Hg SW) as (U & V & EV & SU & SV & _). rewrite SW in SU, SV. pose proof Hg as (Hs & _ & Hn & Hm & _).
  assert (Ek2 : (m / 2 = k)%nat). { subst m. symmetry. apply Nat.div_unique with (r := 1%nat); lia. }
  assert (I : forall Y, shp Y = [n; (m / 2 + 1)%nat] -> irfft2 Y = Ok (irfftn Y) /\ shp (irfftn Y) = [n; (m - 1)%nat]).
  { intros Y SY. destruct (@irfftn2_raw Y n _ SY) as [S _]. split.
    - unfold irfft2. rewrite SY. destruct (Nat.eqb_spec n 0); [lia|]. destruct (Nat.ltb_spec (m / 2 + 1) 2); [lia | reflexivity].
    - rewrite S. do 2 f_equal. lia. }
  destruct (I U SU) as [E1 S1]. destruct (I V SV) as [E2 S2]. exists (irfftn U), (irfftn V). unfold spectral_vorticity_decoder. rewrite EV. cbn [bind fst snd]. rewrite E1. cbn [bind]. rewrite E2. cbn [bind].
  split; [reflexivity|]. split; [exact S1|]. split; [exact S2|]. rewrite S1, Hs. intros E. injection E as E. lia.
Qed.

(** ** Spectral downsampling *)
(** Row of the fine spectrum that holds the wave of row [p] of the coarse spectrum. *)
Definition fine_row (n n' : nat) (p : Z) : Z := if p <? Z.of_nat n' / 2 then p else p + (Z.of_nat n - Z.of_nat n').
(** One axis: sampling every r-th point. *)
Lemma ifft1_sample r n' (F : Z -> cplx) i : (0 < r)%nat -> (0 < n')%nat -> Nat.Even n' ->
  (forall p, 0 <= p < Z.of_nat (r * n') -> Z.of_nat n' <= 2 * Z.abs (signed (r * n') p) -> F p = C0) ->
  ifft1 (r * n') F (Z.of_nat r * i) = Cscal (/ INR r) (ifft1 n' (fun p => F (fine_row (r * n') n' p)) i).
Proof.
  intros Hr Hn [h Eh] HF. assert (Hh : Z.of_nat n' / 2 = Z.of_nat h) by (subst n'; rewrite Nat2Z.inj_mul, Z.mul_comm; apply Z.div_mul; lia).
  set (n := (r * n')%nat) in *. assert (En : (n = h + ((n - n') + h))%nat) by (unfold n; nia).
  assert (R0 : INR r <> 0%R) by (apply not_0_INR; lia). assert (N0 : INR n' <> 0%R) by (apply not_0_INR; lia).
  assert (Nr : INR n = (INR r * INR n')%R) by (unfold n; apply mult_INR).
  assert (K : forall p c, idftm n (Z.of_nat r * i) (p + c * (Z.of_nat n - Z.of_nat n')) = Cscal (/ INR r) (idftm n' i p)).
  { intros p c. unfold idftm. rewrite Nr.
    replace (2 * PI * IZR (Z.of_nat r * i * (p + c * (Z.of_nat n - Z.of_nat n'))) / (INR r * INR n'))%R with (2 * PI * IZR (i * p) / INR n' + 2 * PI * IZR (i * c * (Z.of_nat r - 1)))%R.
    - rewrite cis_add, cis_2piZ. apply Ceq; cbn; field; auto.
    - unfold n. rewrite Nat2Z.inj_mul, !mult_IZR, !plus_IZR, !mult_IZR, !minus_IZR, !mult_IZR, <- !INR_IZR_INZ. field. auto. }
  unfold ifft1. rewrite En at 1. rewrite !csum_split. rewrite (@csum_zero (n - n')).
  2: { intros q Hq. rewrite HF; [ring | lia |]. unfold signed. zb; lia. }
  transitivity (Cscal (/ INR r) (Cadd (csum h (fun p => Cmul (idftm n' i p) (F (fine_row n n' p)))) (csum h (fun q => Cmul (idftm n' i (q + Z.of_nat h)) (F (fine_row n n' (q + Z.of_nat h))))))).
  2: { f_equal. rewrite <- csum_split. replace (h + h)%nat with n' by lia. reflexivity. }
  transitivity (Cadd (Cmul (RtoC (/ INR r)) (csum h (fun p => Cmul (idftm n' i p) (F (fine_row n n' p))))) (Cmul (RtoC (/ INR r)) (csum h (fun q => Cmul (idftm n' i (q + Z.of_nat h)) (F (fine_row n n' (q + Z.of_nat h))))))); [|set (A := csum h _); set (B := csum h _); destruct A, B; ceq].
  rewrite <- !csum_scal. transitivity (Cadd (csum h (fun p => Cmul (RtoC (/ INR r)) (Cmul (idftm n' i p) (F (fine_row n n' p))))) (csum h (fun q => Cmul (RtoC (/ INR r)) (Cmul (idftm n' i (q + Z.of_nat h)) (F (fine_row n n' (q + Z.of_nat h))))))); [|reflexivity].
  f_equal.
  - apply csum_ext. intros p Hp. pose proof (K p 0) as E. rewrite Z.mul_0_l, Z.add_0_r in E. rewrite E. unfold fine_row. rewrite Hh. destruct (Z.ltb_spec p (Z.of_nat h)); [|lia]. set (z := F p). set (y := idftm n' i p). destruct z, y. ceq.
  - transitivity (Cadd C0 (csum h (fun q => Cmul (RtoC (/ INR r)) (Cmul (idftm n' i (q + Z.of_nat h)) (F (fine_row n n' (q + Z.of_nat h))))))); [f_equal|ring].
    apply csum_ext. intros q Hq. unfold fine_row. rewrite Hh. destruct (Z.ltb_spec (q + Z.of_nat h) (Z.of_nat h)); [lia|].
    assert (Ei : q + Z.of_nat (n - n') + Z.of_nat h = q + Z.of_nat h + (Z.of_nat n - Z.of_nat n')) by lia. rewrite Ei. pose proof (K (q + Z.of_nat h) 1) as E. rewrite Z.mul_1_l in E. rewrite E.
    set (z := F _). set (y := idftm n' i _). destruct z, y. ceq.
Qed.
Lemma concat_rows {A} (x y : arr A) a b k : shp x = [a; k] -> shp y = [b; k] ->
  exists r, concatenate [x; y] 0 = Ok r /\ shp r = [(a + b)%nat; k] /\ forall p q, 0 <= p < Z.of_nat (a + b) -> get r [p; q] = if p <? Z.of_nat a then get x [p; q] else get y [p - Z.of_nat a; q].
Proof.
  intros Sx Sy. unfold concatenate, ndim, normalize_axis. rewrite ?Sx, ?Sy. cbn [length Z.of_nat Z.opp Z.leb Z.ltb Z.compare Pos.of_succ_nat Pos.succ andb bind Z.to_nat forallb]. rewrite ?Sx, ?Sy. cbn [length Nat.eqb andb seq forallb nth orb]. rewrite !Nat.eqb_refl. cbn [andb].
  eexists. split; [reflexivity|]. split; [cbn [shp map fold_right]; rewrite Sx, Sy; cbn; do 2 f_equal; lia|].
  intros p q Hp. cbn [get concat_lines]. rewrite Sx, Sy. cbn [nth]. destruct (Z.ltb_spec p (Z.of_nat a)); [reflexivity|]. cbn [upd nth]. destruct (Z.ltb_spec (p - Z.of_nat a) (Z.of_nat b)); [reflexivity | lia].
Qed.
Lemma rows_cut {A} (x : arr A) n k st sp : shp x = [n; k] -> exists y, index_axis x 0 (PySlice st sp 1) = Ok y /\ shp y = [slice_count n st sp 1; k] /\ forall p q, get y [p; q] = get x [slice_start n st + p; q].
Proof. intros S. unfold index_axis. rewrite S. cbn [nth Z.leb Z.compare]. eexists. split; [reflexivity|]. split; [reflexivity|]. intros p q. cbn [get nth upd]. rewrite Z.mul_1_r. reflexivity. Qed.
Lemma cols_cut {A} (x : arr A) n k st sp : shp x = [n; k] -> exists y, index_axis x 1 (PySlice st sp 1) = Ok y /\ shp y = [n; slice_count k st sp 1] /\ forall p q, get y [p; q] = get x [p; slice_start k st + q].
Proof. intros S. unfold index_axis. rewrite S. cbn [nth Z.leb Z.compare]. eexists. split; [reflexivity|]. split; [reflexivity|]. intros p q. cbn [get nth upd]. rewrite Z.mul_1_r. reflexivity. Qed.
Lemma downsample_get g W n k n' m' : gshape g = [n'; m'] -> length (gstep g) = 2%nat -> shp W = [n; k] -> (0 < n')%nat -> (n' <= n)%nat -> (m' / 2 + 1 <= k)%nat ->
  exists D, downsample_spectral g W = Ok D /\ shp D = [n'; (m' / 2 + 1)%nat] /\
    forall p q, 0 <= p < Z.of_nat n' -> get D [p; q] = Cscal ((INR n' / INR n) ^ 2) (get W [fine_row n n' p; q]).
Proof.
  intros Hs Ht SW Hn Hle Hk. unfold downsample_spectral, rfft_axes. rewrite Hs. destruct (gstep g) as [|h1 [|h2 [|]]]; cbn in Ht; try discriminate. cbn [removelast combine map app last fst snd]. rewrite SW.
  set (half := Z.of_nat n' / 2). assert (Hh : 0 <= half <= Z.of_nat n') by (unfold half; Z.to_euclidean_division_equations; lia).
  assert (Hh2 : (- Z.of_nat n') / 2 = half - Z.of_nat n') by (unfold half; Z.to_euclidean_division_equations; lia).
  assert (Hlt : half < Z.of_nat n') by (unfold half; Z.to_euclidean_division_equations; lia).
  rewrite Hh2. 
  assert (C1 : slice_count n None (Some half) 1 = Z.to_nat half). { unfold slice_count, slice_stop, slice_start, clamp_bound. destruct (Z.ltb_spec half 0); [lia|]. rewrite Z.div_1_r. lia. }
  assert (S2 : slice_start n (Some (half - Z.of_nat n')) = Z.of_nat n - Z.of_nat n' + half). { unfold slice_start, clamp_bound. destruct (Z.ltb_spec (half - Z.of_nat n') 0); lia. }
  assert (C2 : slice_count n (Some (half - Z.of_nat n')) None 1 = Z.to_nat (Z.of_nat n' - half)). { unfold slice_count. rewrite S2. unfold slice_stop, clamp_bound. rewrite Z.div_1_r. lia. }
  assert (C3 : slice_count k None (Some (Z.of_nat (m' / 2 + 1))) 1 = (m' / 2 + 1)%nat). { unfold slice_count, slice_stop, slice_start, clamp_bound. destruct (Z.ltb_spec (Z.of_nat (m' / 2 + 1)) 0); [lia|]. rewrite Z.div_1_r. lia. }
  destruct (@rows_cut _ W n k None (Some half) SW) as (t1 & E1 & T1 & G1). rewrite C1 in T1. rewrite E1. cbn [bind].
  destruct (@cols_cut _ t1 _ k None (Some (Z.of_nat (m' / 2 + 1))) T1) as (t2 & E2 & T2 & G2). rewrite C3 in T2. rewrite E2. cbn [bind].
  destruct (@rows_cut _ W n k (Some (half - Z.of_nat n')) None SW) as (b1 & E3 & T3 & G3). rewrite C2 in T3. rewrite E3. cbn [bind].
  destruct (@cols_cut _ b1 _ k None (Some (Z.of_nat (m' / 2 + 1))) T3) as (b2 & E4 & T4 & G4). rewrite C3 in T4. rewrite E4. cbn [bind].
  destruct (@concat_rows _ t2 b2 _ _ _ T2 T4) as (r & E5 & T5 & G5). rewrite E5. cbn [bind].
  assert (Esum : (Z.to_nat half + Z.to_nat (Z.of_nat n' - half) = n')%nat) by lia. rewrite Esum in *.
  eexists. split; [reflexivity|]. split; [exact T5|]. intros p q Hp. cbn [get amap]. f_equal. rewrite G5 by exact Hp. unfold fine_row. fold half. rewrite Z2Nat.id by lia.
  destruct (Z.ltb_spec p half).
  - rewrite G2, G1. change (slice_start n None) with 0. change (slice_start k None) with 0. reflexivity.
  - rewrite G4, G3, S2. change (slice_start k None) with 0. f_equal. f_equal. lia.
Qed.
(** The full spectra of the two. *)
Lemma fine_row_range n n' p : (n' <= n)%nat -> 0 <= p < Z.of_nat n' -> 0 <= fine_row n n' p < Z.of_nat n.
Proof. intros Hle Hp. unfold fine_row. destruct (Z.ltb_spec p (Z.of_nat n' / 2)); lia. Qed.
Lemma fine_row_wave n n' p : (n' <= n)%nat -> Nat.Even n' -> 0 <= p < Z.of_nat n' -> signed n (fine_row n n' p) = signed n' p.
Proof. intros Hle [h E] Hp. unfold fine_row, signed. assert (Z.of_nat n' / 2 = Z.of_nat h) by (subst n'; rewrite Nat2Z.inj_mul, Z.mul_comm; apply Z.div_mul; lia). zb; lia. Qed.
Lemma fine_row_neg n n' p : (0 < n')%nat -> (n' <= n)%nat -> Nat.Even n' -> 0 <= p < Z.of_nat n' -> 2 * p <> Z.of_nat n' -> fine_row n n' (nneg n' p) = nneg n (fine_row n n' p).
Proof.
  intros Hn Hle [h E] Hp N. assert (Eh : Z.of_nat n' / 2 = Z.of_nat h) by (subst n'; rewrite Nat2Z.inj_mul, Z.mul_comm; apply Z.div_mul; lia).
  unfold nneg, fine_row. rewrite Eh. destruct (Z.eq_dec p 0) as [->|Hp0].
  - rewrite Z.mod_0_l by lia. destruct (Z.ltb_spec 0 (Z.of_nat h)); [|lia]. rewrite Z.mod_0_l by lia. reflexivity.
  - replace ((- p) mod Z.of_nat n') with (Z.of_nat n' - p) by (apply Z.mod_unique with (q := -1); lia).
    destruct (Z.ltb_spec p (Z.of_nat h)); destruct (Z.ltb_spec (Z.of_nat n' - p) (Z.of_nat h)); try lia; apply Z.mod_unique with (q := -1); lia.
Qed.
Lemma herm2_vanish n m U p q : U p q = C0 -> U (nneg n p) q = C0 -> U (nneg n p) (Z.of_nat m - q) = C0 -> herm2 n m U p q = C0.
Proof. intros H1 H2 H3. unfold herm2. zb; rewrite ?H1, ?H2, ?H3; ceq. Qed.
Lemma signed_nneg_abs n p : (0 < n)%nat -> 0 <= p < Z.of_nat n -> Z.abs (signed n (nneg n p)) = Z.abs (signed n p).
Proof.
  intros Hn Hp. destruct (Z.eq_dec (2 * p) (Z.of_nat n)) as [E|E].
  - replace (nneg n p) with p; [reflexivity|]. unfold nneg. apply Z.mod_unique with (q := -1); lia.
  - rewrite signed_neg by assumption. apply Z.abs_opp.
Qed.
Lemma Cscal_0 c : Cscal c C0 = C0. Proof. ceq. Qed.
Lemma Cscal_conj c z : Cconj (Cscal c z) = Cscal c (Cconj z). Proof. destruct z. ceq. Qed.
Lemma downsampled_full n m n' m' c (W D : Z -> Z -> cplx) p q : (0 < n')%nat -> (0 < m')%nat -> (n' <= n)%nat -> (m' <= m)%nat -> Nat.Even n' -> Nat.Even m' -> Nat.Even m ->
  (forall i b, 0 <= i < Z.of_nat n -> 0 <= 2 * b <= Z.of_nat m -> Z.of_nat n' <= 2 * Z.abs (signed n i) \/ Z.of_nat m' <= 2 * b -> W i b = C0) ->
  (forall i b, 0 <= i < Z.of_nat n' -> D i b = Cscal c (W (fine_row n n' i) b)) ->
  0 <= p < Z.of_nat n' -> 0 <= q < Z.of_nat m' ->
  herm2 n' m' D p q = Cscal c (herm2 n m W (fine_row n n' p) (fine_row m m' q)).
Proof.
  intros Hn Hm Hln Hlm En Em Em2 HW HD Hp Hq. pose proof Em as [k Ek]. assert (Hk : Z.of_nat m' / 2 = Z.of_nat k) by (subst m'; rewrite Nat2Z.inj_mul, Z.mul_comm; apply Z.div_mul; lia).
  pose proof (@fine_row_range n n' p Hln Hp) as HR. pose proof (@nneg_range n' p Hn) as HNp. assert (Hn0 : (0 < n)%nat) by lia.
  (* the mirrored row *)
  assert (HM : forall b, 0 <= 2 * b <= Z.of_nat m -> W (fine_row n n' (nneg n' p)) b = W (nneg n (fine_row n n' p)) b).
  { intros b Hb. destruct (Z.eq_dec (2 * p) (Z.of_nat n')) as [E|E]; [|rewrite fine_row_neg by assumption; reflexivity].
    rewrite HW; [symmetry; apply HW; auto; [apply nneg_range; exact Hn0|] | apply fine_row_range; [exact Hln | exact HNp] | exact Hb |]; left.
    - rewrite signed_nneg_abs by (assumption || lia). rewrite fine_row_wave by assumption. unfold signed. zb; lia.
    - rewrite fine_row_wave by assumption. rewrite signed_nneg_abs by assumption. unfold signed. zb; lia. }
  unfold herm2 at 1. rewrite !HD by assumption. destruct (Z.eqb_spec q 0) as [->|Hq0].
  - rewrite HM by lia. assert (Ef : fine_row m m' 0 = 0) by (unfold fine_row; rewrite Hk; destruct (Z.ltb_spec 0 (Z.of_nat k)); lia). rewrite Ef. unfold herm2. cbn [Z.eqb].
    set (A := W (fine_row n n' p) 0). set (B := W (nneg n (fine_row n n' p)) 0). destruct A, B. ceq.
  - destruct (Z.ltb_spec (2 * q) (Z.of_nat m')) as [L|L].
    + replace (fine_row m m' q) with q by (unfold fine_row; rewrite Hk; destruct (Z.ltb_spec q (Z.of_nat k)); lia). unfold herm2. destruct (Z.eqb_spec q 0); [lia|]. destruct (Z.ltb_spec (2 * q) (Z.of_nat m)); [reflexivity | lia].
    + assert (Ef : fine_row m m' q = q + (Z.of_nat m - Z.of_nat m')) by (unfold fine_row; rewrite Hk; destruct (Z.ltb_spec q (Z.of_nat k)); lia). rewrite Ef.
      destruct (Z.eqb_spec (2 * q) (Z.of_nat m')) as [L2|L2].
      * rewrite HW by (auto; lia). rewrite HM by lia. rewrite (HW (nneg n _)) by (auto; try (apply nneg_range; exact Hn0); lia). unfold herm2. destruct (Z.eqb_spec (q + (Z.of_nat m - Z.of_nat m')) 0); [lia|]. destruct (Z.ltb_spec (2 * (q + (Z.of_nat m - Z.of_nat m'))) (Z.of_nat m)); [lia|].
        destruct (Z.eqb_spec (2 * (q + (Z.of_nat m - Z.of_nat m'))) (Z.of_nat m)).
        -- rewrite (HW (fine_row n n' p)) by (auto; lia). rewrite (HW (nneg n _)) by (auto; try (apply nneg_range; exact Hn0); lia). ceq.
        -- replace (Z.of_nat m - (q + (Z.of_nat m - Z.of_nat m'))) with q by lia. rewrite (HW (nneg n _)) by (auto; try (apply nneg_range; exact Hn0); lia). ceq.
      * unfold herm2. destruct (Z.eqb_spec (q + (Z.of_nat m - Z.of_nat m')) 0); [lia|]. destruct (Z.ltb_spec (2 * (q + (Z.of_nat m - Z.of_nat m'))) (Z.of_nat m)); [lia|].
        destruct (Z.eqb_spec (2 * (q + (Z.of_nat m - Z.of_nat m'))) (Z.of_nat m)); [lia|]. replace (Z.of_nat m - (q + (Z.of_nat m - Z.of_nat m'))) with (Z.of_nat m' - q) by lia.
        rewrite HM by lia. apply Cscal_conj.
Qed.
Lemma herm2_fits n m n' m' (W : Z -> Z -> cplx) p q : (0 < n)%nat -> 0 <= p < Z.of_nat n -> 0 <= q < Z.of_nat m ->
  (forall i b, 0 <= i < Z.of_nat n -> 0 <= 2 * b <= Z.of_nat m -> Z.of_nat n' <= 2 * Z.abs (signed n i) \/ Z.of_nat m' <= 2 * b -> W i b = C0) ->
  Z.of_nat n' <= 2 * Z.abs (signed n p) \/ Z.of_nat m' <= 2 * Z.abs (signed m q) -> herm2 n m W p q = C0.
Proof.
  intros Hn Hp Hq HW HB. pose proof (@nneg_range n p Hn) as HNp. pose proof (@signed_nneg_abs n p Hn Hp) as Ea.
  assert (Hs : Z.abs (signed m q) = if 2 * q <? Z.of_nat m then q else Z.of_nat m - q) by (unfold signed; zb; lia). rewrite Hs in HB. revert HB. unfold herm2. zb; intros HB; try lia;
  repeat match goal with |- context [W ?a ?b] => rewrite (HW a b ltac:(lia) ltac:(lia) ltac:(rewrite ?Ea; lia)) end; ceq.
Qed.
Lemma downsampling_general g r s n' m' hx hy (W : arr cplx) : grid2 g n' m' hx hy -> (0 < r)%nat -> (0 < s)%nat -> Nat.Even n' -> Nat.Even m' ->
  shp W = [(r * n')%nat; (s * m' / 2 + 1)%nat] -> fits (r * n') (s * m') n' m' W ->
  exists D x y, downsample_spectral g W = Ok D /\ shp D = [n'; (m' / 2 + 1)%nat] /\ irfft2 W = Ok x /\ irfft2 D = Ok y /\ shp x = [(r * n')%nat; (s * m')%nat] /\ shp y = [n'; m'] /\
    forall i j, get y [i; j] = (INR s / INR r * get x [(Z.of_nat r * i)%Z; (Z.of_nat s * j)%Z])%R.
Proof.
  intros (Hs & Ht & Hn & Hm & Hx & Hy) Hr Hs0 En Em SW HF. set (n := (r * n')%nat) in *. set (m := (s * m')%nat) in *.
  assert (Hln : (n' <= n)%nat) by (unfold n; nia). assert (Hlm : (m' <= m)%nat) by (unfold m; nia). assert (Em2 : Nat.Even m) by (destruct Em as [k ->]; exists (s * k)%nat; unfold m; lia).
  assert (HW : forall i b, 0 <= i < Z.of_nat n -> 0 <= 2 * b <= Z.of_nat m -> Z.of_nat n' <= 2 * Z.abs (signed n i) \/ Z.of_nat m' <= 2 * b -> get W [i; b] = C0).
  { intros i b Hi Hb HB. apply HF; [exact Hi | apply half_range; exact Hb | exact HB]. }
  destruct (@downsample_get g W n _ n' m' Hs ltac:(rewrite Ht; reflexivity) SW Hn Hln) as (D & ED & SD & GD); [apply Nat.add_le_mono_r, Nat.div_le_mono; lia|].
  destruct (@irfftn2 W n m SW ltac:(lia) ltac:(lia) Em2) as [Sx Gx]. destruct (@irfftn2 D n' m' SD Hn Hm Em) as [Sy Gy].
  exists D, (irfftn W), (irfftn D). split; [exact ED|]. split; [exact SD|]. split; [apply (@irfft2_even W n m); (assumption || lia)|]. split; [apply (@irfft2_even D n' m'); assumption|]. split; [exact Sx|]. split; [exact Sy|].
  intros i j. assert (R0 : INR r <> 0%R) by (apply not_0_INR; lia). assert (S0 : INR s <> 0%R) by (apply not_0_INR; lia). assert (N0 : INR n' <> 0%R) by (apply not_0_INR; lia).
  assert (E : RtoC (get (irfftn D) [i; j]) = Cscal (INR s / INR r) (RtoC (get (irfftn W) [Z.of_nat r * i; Z.of_nat s * j]))); [|apply (f_equal re) in E; exact E].
  rewrite Gx, Gy. set (H := herm2 n m (fun p q => get W [p; q])).
  assert (EH : ifft2 n m H (Z.of_nat r * i) (Z.of_nat s * j) = Cscal (/ INR r) (Cscal (/ INR s) (ifft2 n' m' (fun p q => H (fine_row n n' p) (fine_row m m' q)) i j))).
  { unfold ifft2. transitivity (ifft1 n (fun p => Cscal (/ INR s) (ifft1 m' (fun q => H p (fine_row m m' q)) j)) (Z.of_nat r * i)).
    - apply ifft1_ext. intros p Hp. unfold m. apply ifft1_sample; auto. intros q Hq HB. apply (@herm2_fits n m n' m'); auto; lia.
    - unfold n. rewrite (@ifft1_sample r n' (fun p => Cscal (/ INR s) (ifft1 m' (fun q => H p (fine_row m m' q)) j)) i Hr Hn En).
      + f_equal. rewrite <- ifft1_cscal. reflexivity.
      + intros p Hp HB. transitivity (Cscal (/ INR s) C0); [|ceq]. f_equal. unfold ifft1. apply csum_zero. intros q Hq. unfold H. rewrite (@herm2_fits n m n' m'); auto; [ring | lia | apply fine_row_range; assumption]. }
  rewrite EH. transitivity (ifft2 n' m' (fun p q => Cscal ((INR n' / INR n) ^ 2) (H (fine_row n n' p) (fine_row m m' q))) i j).
  - apply ifft2_ext. intros p q Hp Hq. unfold H. apply downsampled_full; auto.
  - unfold ifft2. transitivity (ifft1 n' (fun p => Cscal ((INR n' / INR n) ^ 2) (ifft1 m' (fun q => H (fine_row n n' p) (fine_row m m' q)) j)) i); [apply ifft1_ext; intros p _; apply ifft1_cscal|].
    rewrite ifft1_cscal. set (z := ifft1 n' _ i). assert (Nr : INR n = (INR r * INR n')%R) by (unfold n; apply mult_INR). rewrite Nr. destruct z. apply Ceq; cbn; field; auto.
Qed.
(* @prop C70 Spectral downsampling: on every grid with even numbers of points and for every factor r, if the spectrum of the r times finer grid only has waves that the coarse grid can show (below its highest wave numbers), the field of downsample_spectral's result is the fine field sampled at every r-th point of each axis, exactly. *)
Lemma spectral_downsampling_samples_lem : forall (g : grid) (r n m : nat) (hx hy : R) (W : arr cplx),
  grid2 g n m hx hy -> (0 < r)%nat -> Nat.Even n -> Nat.Even m -> shp W = [(r * n)%nat; (r * m / 2 + 1)%nat] -> fits (r * n) (r * m) n m W ->
  exists D x y, downsample_spectral g W = Ok D /\ shp D = [n; (m / 2 + 1)%nat] /\ irfft2 W = Ok x /\ irfft2 D = Ok y /\ shp x = [(r * n)%nat; (r * m)%nat] /\
    shows n m y (fun i j => get x [Z.of_nat r * i; Z.of_nat r * j]).
Proof.
  intros g r n m hx hy W Hg Hr En Em SW HF. destruct (@downsampling_general g r r n m hx hy W Hg Hr Hr En Em SW HF) as (D & x & y & E1 & E2 & E3 & E4 & E5 & E6 & G).
  exists D, x, y. do 5 (split; [assumption|]). split; [exact E6|]. intros i j _ _. rewrite G. field. apply not_0_INR. lia.
Qed.
(** Wave (1, 1) on an 8 x 8 grid. *)
Definition one_wave : arr cplx := mkarr [8%nat; 5%nat] (fun ix => if (nth 0 ix 0 =? 1) && (nth 1 ix 0 =? 1) then C1 else C0).
Lemma one_wave_fits : fits 8 8 4 4 one_wave.
Proof.
  intros i b Hi Hb HB. unfold one_wave. cbn [get nth]. destruct (Z.eqb_spec i 1) as [->|]; [|reflexivity]. destruct (Z.eqb_spec b 1) as [->|]; [|reflexivity].
  exfalso. cbn in HB. lia.
Qed.
(* @ex *)
Lemma spectral_downsampling_samples_ex_lem : grid2 ex_grid2 4 4 (1/4) (1/2) /\ Nat.Even 4 /\ shp one_wave = [(2 * 4)%nat; (2 * 4 / 2 + 1)%nat] /\ fits (2 * 4) (2 * 4) 4 4 one_wave /\ get one_wave [1; 1] = C1.
Proof. split; [apply ex_grid2_ok|]. split; [exists 2%nat; reflexivity|]. split; [reflexivity|]. split; [apply one_wave_fits | reflexivity]. Qed.
(* @prop C70 Limit of the previous theorem, different factors: downsample_spectral takes its scale from the first axis only. With factors r and s on the two axes the result is the sampled field times s / r, so it is wrong for every nonzero field when r <> s. *)
Lemma spectral_downsampling_two_factors_refuted_lem : forall (g : grid) (r s n m : nat) (hx hy : R) (W : arr cplx),
  grid2 g n m hx hy -> (0 < r)%nat -> (0 < s)%nat -> Nat.Even n -> Nat.Even m -> shp W = [(r * n)%nat; (s * m / 2 + 1)%nat] -> fits (r * n) (s * m) n m W ->
  exists D x y, downsample_spectral g W = Ok D /\ irfft2 W = Ok x /\ irfft2 D = Ok y /\
    forall i j, get y [i; j] = (INR s / INR r * get x [(Z.of_nat r * i)%Z; (Z.of_nat s * j)%Z])%R /\
      (r <> s -> get x [Z.of_nat r * i; Z.of_nat s * j] <> 0%R -> get y [i; j] <> get x [Z.of_nat r * i; Z.of_nat s * j]).
Proof.
  intros g r s n m hx hy W Hg Hr Hs En Em SW HF. destruct (@downsampling_general g r s n m hx hy W Hg Hr Hs En Em SW HF) as (D & x & y & E1 & E2 & E3 & E4 & E5 & E6 & G).
  exists D, x, y. do 3 (split; [assumption|]). intros i j. split; [apply G|]. intros N N0 E. rewrite G in E. apply N. apply INR_eq. assert (R0 : INR r <> 0%R) by (apply not_0_INR; lia).
  set (X := get x _) in *. assert (E' : (INR s * X = INR r * X)%R). { transitivity (INR r * (INR s / INR r * X))%R; [field; exact R0 | rewrite E; reflexivity]. }
  apply Rmult_eq_reg_r in E'; [congruence | exact N0].
Qed.
(* @prop C70 Limit, odd sizes: for every destination with an odd number n >= 3 of rows, the row of downsample_spectral's result that stands for wave number +(n-1)/2 is filled with the input's wave number -(n+1)/2; the input's +(n-1)/2, which the coarse grid could show, is dropped - so changing it alone never changes the result. *)
Lemma spectral_downsampling_odd_refuted_lem : forall (g : grid) (n m N M : nat) (hx hy : R) (W : arr cplx),
  grid2 g n m hx hy -> Nat.Odd n -> (3 <= n < N)%nat -> (m / 2 + 1 <= M)%nat -> shp W = [N; M] ->
  exists D, downsample_spectral g W = Ok D /\ shp D = [n; (m / 2 + 1)%nat] /\
    let h := (Z.of_nat n - 1) / 2 in row_wave n h = h /\ row_wave N (Z.of_nat N - (h + 1)) = - (h + 1) /\
    (forall q, get D [h; q] = Cscal ((INR n / INR N) ^ 2) (get W [Z.of_nat N - (h + 1); q])) /\
    forall W', shp W' = [N; M] -> (forall p q, 0 <= p < Z.of_nat N -> p <> h -> get W' [p; q] = get W [p; q]) ->
      exists D', downsample_spectral g W' = Ok D' /\ forall p q, 0 <= p < Z.of_nat n -> get D' [p; q] = get D [p; q].
Proof.
  intros g n m N M hx hy W (Hs & Ht & Hn & Hm & Hx & Hy) [k Ek] HN HM SW. destruct (@downsample_get g W N M n m Hs ltac:(rewrite Ht; reflexivity) SW Hn ltac:(lia) HM) as (D & ED & SD & GD).
  exists D. split; [exact ED|]. split; [exact SD|]. assert (Eh : (Z.of_nat n - 1) / 2 = Z.of_nat k) by (subst n; symmetry; apply Z.div_unique with (r := 0); lia). assert (Eh2 : Z.of_nat n / 2 = Z.of_nat k) by (subst n; symmetry; apply Z.div_unique with (r := 1); lia).
  cbv zeta. rewrite Eh. split; [unfold row_wave; zb; lia|]. split; [unfold row_wave; zb; lia|]. split.
  - intros q. rewrite GD by lia. unfold fine_row. rewrite Eh2. destruct (Z.ltb_spec (Z.of_nat k) (Z.of_nat k)); [lia|]. do 2 f_equal. f_equal. lia.
  - intros W' SW' HW'. destruct (@downsample_get g W' N M n m Hs ltac:(rewrite Ht; reflexivity) SW' Hn ltac:(lia) HM) as (D' & ED' & SD' & GD'). exists D'. split; [exact ED'|]. intros p q Hp. rewrite GD, GD' by assumption. f_equal.
    apply HW'; [apply fine_row_range; (assumption || lia)|]. unfold fine_row. rewrite Eh2. destruct (Z.ltb_spec p (Z.of_nat k)); lia.
Qed.
