(** * C65, C41: forced flows, and the exponential filter *)
From Verif Require Import Prelude NdArr LinAlg Cplx Grids_model Boundaries_model FD_model Advection_model FastDiag_model Forcings_model FourierProofs FourierLine Spectral_model SpectralProps SpectralUtilProps FourierPlane SpecFourier NS2DBase NS2DProps NS2DConserve NS2DMoreProps NS2DWaveProps ForcedNS_model.
Set Implicit Arguments.
Local Open Scope Z_scope.

Lemma half_size (m : nat) : (2 * (m / 2 + 1 - 1) / 2 + 1 = m / 2 + 1)%nat.
Proof. replace (m / 2 + 1 - 1)%nat with (m / 2)%nat by lia. rewrite (Nat.mul_comm 2), Nat.div_mul by lia. reflexivity. Qed.
(* @prop C65 Forcing. On every grid (even or odd sizes), for every vorticity spectrum, smooth flag and forcing function returning two arrays of the grid's shape for the current velocity: NavierStokes2D.explicit_terms with the forcing is explicit_terms without it plus, wave by wave, the curl of the transformed forcing, 2 pi i (kx fy - ky fx). *)
Lemma ns2d_forcing_adds_curl_lem : forall (g : grid) (n m : nat) (hx hy : R) (smooth : option bool) (W U V : arr cplx) (f : arr R -> arr R -> result (arr R * arr R)) (fx fy : arr R),
  grid2 g n m hx hy -> shp W = [n; (m / 2 + 1)%nat] -> vorticity_to_velocity g W = Ok (U, V) ->
  f (irfftn U) (irfftn V) = Ok (fx, fy) -> shp fx = [n; m] -> shp fy = [n; m] ->
  exists N0 N, ns2d_explicit_terms g smooth None W = Ok N0 /\ ns2d_explicit_terms g smooth (Some f) W = Ok N /\ shp N0 = [n; (m / 2 + 1)%nat] /\ shp N = [n; (m / 2 + 1)%nat] /\
    forall i b, 0 <= i < Z.of_nat n -> 0 <= b <= Z.of_nat (m / 2) ->
      get N [i; b] = Cadd (get N0 [i; b]) (spectral_curl (freq n hx (row_wave n i)) (freq m hy b) (get (rfftn fx) [i; b]) (get (rfftn fy) [i; b])).
Proof.
  intros g n m hx hy smooth W U V f fx fy Hg Hw EV Ef Sx Sy. pose proof (rfft_mesh2 Hg) as Em.
  destruct (@velocity_symbols g n m hx hy W Hg Hw) as (U' & V' & EV' & SU & SV & _). rewrite EV in EV'. injection EV' as <- <-.
  destruct Hg as (Hs & _ & Hn & Hm & Hx & Hy). destruct (@brick_get g n m Hs Hn Hm) as (F & EF & SF & _).
  set (k := (m / 2 + 1)%nat) in *. rewrite Hw in SU, SV. destruct (irfftn2_raw U SU) as [S1 _]. destruct (irfftn2_raw V SV) as [S2 _].
  unfold ns2d_explicit_terms. rewrite Em, EF, EV. cbn [bind fst snd]. rewrite ew_ok by (rewrite Hw; reflexivity). cbn [bind]. rewrite ew_ok by (rewrite Hw; reflexivity). cbn [bind].
  set (gx := amap2 _ (mesh_x n m hx) W). set (gy := amap2 _ (mesh_y n m hy) W).
  destruct (@irfftn2_raw gx n k eq_refl) as [S3 _]. destruct (@irfftn2_raw gy n k eq_refl) as [S4 _].
  rewrite ew_ok by congruence. cbn [bind]. rewrite ew_ok by congruence. cbn [bind]. rewrite ew_ok by (cbn; congruence). cbn [bind].
  match goal with |- context [rfftn (amap Ropp ?x)] => set (adv := amap Ropp x) end. assert (Sa : shp adv = [n; (2 * (k - 1))%nat]) by (unfold adv; cbn; exact S3).
  destruct (rfftn2 adv Sa) as [S5 _]. assert (Ek : (2 * (k - 1) / 2 + 1)%nat = k) by apply half_size. rewrite Ek in S5.
  destruct (rfftn2 fx Sx) as [S6 _]. destruct (rfftn2 fy Sy) as [S7 _]. fold k in S6, S7.
  assert (HT : exists T, match smooth with None => Ok (rfftn adv) | Some _ => ew (fun h f0 => Cscal f0 h) (rfftn adv) F end = Ok T /\ shp T = [n; k]).
  { destruct smooth; [rewrite ew_ok by congruence|]; eexists; split; try reflexivity; exact S5. }
  destruct HT as (T & ET & ST). rewrite ET. cbn [bind]. rewrite Ef. cbn [bind fst snd].
  unfold spectral_curl_2d. rewrite ew_ok by (rewrite S7; reflexivity). cbn [bind]. rewrite ew_ok by (rewrite S6; reflexivity). cbn [bind]. rewrite ew_ok by (cbn; congruence). cbn [bind].
  rewrite ew_ok by (cbn; congruence). eexists. eexists. split; [reflexivity|]. split; [reflexivity|]. split; [exact ST|]. split; [cbn; exact ST|].
  intros i b Hi Hb. cbn [get amap amap2 mesh_x mesh_y nth]. f_equal. unfold spectral_curl, two_pi_i. change (row_wave n i) with (signed n i). ceq.
Qed.

(** ** The transform of a wave *)
Definition wave_spec (n m : nat) (kap : Z) (c : cplx) (p q : Z) : cplx :=
  Cmul (if 0 =? p then C1 else C0) (Cadd (Cmul (if kap =? q then C1 else C0) c) (Cmul (if Z.of_nat m - kap =? q then C1 else C0) (Cconj c))).
Lemma idftm_wave m j kap : (0 < m)%nat -> 0 < kap < Z.of_nat m -> idftm m j (Z.of_nat m - kap) = Cconj (idftm m j kap).
Proof.
  intros Hm Hk. rewrite <- (@idftm_neg m j kap Hm). f_equal. unfold nneg. apply Z.mod_unique with (q := -1); lia.
Qed.
Lemma wave_ifft2 n m kap c i j : (0 < n)%nat -> (0 < m)%nat -> 0 < kap < Z.of_nat m ->
  ifft2 n m (wave_spec n m kap c) i j = RtoC (2 / (INR n * INR m) * re (Cmul c (cis (2 * PI * IZR (j * kap) / INR m)))).
Proof.
  intros Hn Hm Hk. unfold ifft2. unfold ifft1 at 1.
  rewrite (@csum_ext n _ (fun p => Cmul (if 0 =? p then C1 else C0) (Cmul (idftm n i p) (ifft1 m (fun q => Cadd (Cmul (if kap =? q then C1 else C0) c) (Cmul (if Z.of_nat m - kap =? q then C1 else C0) (Cconj c))) j)))).
  2:{ intros p _. unfold ifft1. transitivity (Cmul (idftm n i p) (Cmul (if 0 =? p then C1 else C0) (csum m (fun k => Cmul (idftm m j k) (Cadd (Cmul (if kap =? k then C1 else C0) c) (Cmul (if Z.of_nat m - kap =? k then C1 else C0) (Cconj c))))))); [|ring].
      f_equal. rewrite <- csum_scal. apply csum_ext. intros q _. unfold wave_spec. ring. }
  rewrite csum_delta by lia. unfold ifft1.
  rewrite (@csum_ext m _ (fun q => Cadd (Cmul (if kap =? q then C1 else C0) (Cmul (idftm m j q) c)) (Cmul (if Z.of_nat m - kap =? q then C1 else C0) (Cmul (idftm m j q) (Cconj c))))) by (intros q _; ring).
  rewrite csum_plus, !csum_delta by lia. rewrite idftm_wave by assumption.
  assert (E0 : idftm n i 0 = RtoC (/ INR n)). { unfold idftm. replace (2 * PI * IZR (i * 0) / INR n)%R with 0%R by (rewrite Z.mul_0_r; unfold Rdiv; ring). rewrite cis_0. ceq. }
  rewrite E0. unfold idftm. set (z := cis _). assert (INR n <> 0%R) by (apply not_0_INR; lia). assert (INR m <> 0%R) by (apply not_0_INR; lia). clearbody z. destruct c as [cr ci], z as [zr zi]. apply Ceq; cbn; field; split; assumption.
Qed.
(** The spectrum of the field [A cos (theta + 2 pi kap j / m)] (with [c = A n m / 2 cis theta]). *)
Lemma wave_fft2 n m kap c (w : Z -> Z -> R) : (0 < n)%nat -> (0 < m)%nat -> 0 < kap < Z.of_nat m ->
  (forall i j, w i j = 2 / (INR n * INR m) * re (Cmul c (cis (2 * PI * IZR (j * kap) / INR m))))%R ->
  forall p q, 0 <= p < Z.of_nat n -> 0 <= q < Z.of_nat m -> fft2 n m (fun i j => RtoC (w i j)) p q = wave_spec n m kap c p q.
Proof.
  intros Hn Hm Hk Hw p q Hp Hq. rewrite <- (@fft2_ifft2 n m (wave_spec n m kap c) p q Hp Hq). apply fft2_ext. intros i j _ _. rewrite wave_ifft2 by assumption. f_equal. apply Hw.
Qed.
Lemma wave_rfftn n m kap c (w : arr R) : shp w = [n; m] -> (0 < n)%nat -> 0 < 2 * kap < Z.of_nat m ->
  (forall i j, get w [i; j] = 2 / (INR n * INR m) * re (Cmul c (cis (2 * PI * IZR (j * kap) / INR m))))%R ->
  shp (rfftn w) = [n; (m / 2 + 1)%nat] /\
  forall p q, 0 <= p < Z.of_nat n -> 0 <= q <= Z.of_nat (m / 2) -> get (rfftn w) [p; q] = if (p =? 0) && (q =? kap) then c else C0.
Proof.
  intros Sw Hn Hk Hw. destruct (rfftn2 w Sw) as [S G]. split; [exact S|]. intros p q Hp Hq. rewrite G.
  assert (Hm2 : Z.of_nat (m / 2) <= Z.of_nat m / 2) by (rewrite Nat2Z.inj_div; reflexivity). assert (2 * (Z.of_nat m / 2) <= Z.of_nat m) by (apply Z.mul_div_le; lia).
  rewrite (@wave_fft2 n m kap c (fun i j => get w [i; j])) by (assumption || lia). unfold wave_spec. rewrite (Z.eqb_sym 0 p), (Z.eqb_sym kap q).
  replace (Z.of_nat m - kap =? q) with false by (symmetry; apply Z.eqb_neq; lia). destruct (p =? 0), (q =? kap); cbn [andb]; ceq.
Qed.

(** ** Laminar Kolmogorov flow *)
Lemma kolmogorov_two g n m hx hy dx lo hi : grid2 g n m hx hy -> gdomain g = [dx; (lo, hi)] -> forall vx vy,
  exists f fx fy, kolmogorov_forcing g 1 4 false (Some [[0; 0]; [0; 0]]%Q) = Ok f /\ unpacked_forcing g f vx vy = Ok (fx, fy) /\ shp fx = [n; m] /\ shp fy = [n; m] /\
    (forall i j, get fx [i; j] = sin (4 * (lo + IZR j * hy))) /\ (forall i j, get fy [i; j] = 0%R).
Proof.
  intros (Hs & Ht & _) Hd vx vy. unfold kolmogorov_forcing, grid_mesh, grid_axes, gndim. rewrite Hs, Ht, Hd. destruct dx as [l0 h0]. cbn [length Nat.eqb negb combine map bind getM nth_error seq].
  cbn. unfold unpacked_forcing, get_grid_variable, mk_gvar. cbn [ggrid garray]. unfold gndim. rewrite Hs. cbn. do 3 eexists. split; [reflexivity|]. split; [reflexivity|]. split; [reflexivity|]. split; [reflexivity|]. split.
  - intros i j. cbn. rewrite Rmult_1_l. f_equal. f_equal. f_equal. unfold Q2R. cbn. ring.
  - reflexivity.
Qed.
(* @prop C65 Laminar Kolmogorov flow is an exact steady state of ForcedNavierStokes2D: on every grid (any size, any position) on which the forcing sin(4 y) is periodic and resolved, for every viscosity >= 0 and every smooth flag, the vorticity -4 cos(4 y) / (16 viscosity + 1/10) makes explicit_terms and implicit_terms cancel in every wave. *)
Lemma laminar_kolmogorov_flow_lem : forall (g : grid) (n m : nat) (hx hy : R) (dx : R * R) (lo hi : R) (kap : Z) (viscosity : R) (smooth : option bool),
  grid2 g n m hx hy -> gdomain g = [dx; (lo, hi)] -> 0 < 2 * kap < Z.of_nat m -> (4 * (INR m * hy) = 2 * PI * IZR kap)%R -> (0 <= viscosity)%R ->
  let w := mkarr [n; m] (fun ix => - 4 / (16 * viscosity + 1 / 10) * cos (4 * (lo + IZR (nth 1 ix 0%Z) * hy)))%R in
  exists E I, forced_ns2d_explicit_terms g smooth (rfftn w) = Ok E /\ forced_ns2d_implicit_terms g viscosity (rfftn w) = Ok I /\ shp E = [n; (m / 2 + 1)%nat] /\ shp I = [n; (m / 2 + 1)%nat] /\
    forall i b, 0 <= i < Z.of_nat n -> 0 <= b <= Z.of_nat (m / 2) -> Cadd (get E [i; b]) (get I [i; b]) = C0.
Proof.
  intros g n m hx hy dx lo hi kap nu smooth Hg Hd Hk HL Hnu w. pose proof Hg as (Hs & Ht & Hn & Hm & Hx & Hy).
  set (A := (- 4 / (16 * nu + 1 / 10))%R). assert (HnR : INR n <> 0%R) by (apply not_0_INR; lia). assert (HmR : INR m <> 0%R) by (apply not_0_INR; lia).
  assert (Hy4 : forall j, (4 * (lo + IZR j * hy) = 4 * lo + 2 * PI * IZR (j * kap) / INR m)%R).
  { intros j. rewrite mult_IZR. replace (2 * PI * (IZR j * IZR kap) / INR m)%R with (IZR j * (2 * PI * IZR kap) / INR m)%R by (unfold Rdiv; ring). rewrite <- HL. field. exact HmR. }
  set (th := cis (4 * lo)).
  destruct (@wave_rfftn n m kap (Cscal (A * (INR n * INR m) / 2) th) w eq_refl Hn Hk) as (SW & GW).
  { intros i j. unfold w. cbn [get nth]. fold A. rewrite Hy4. unfold th, cis. cbn. rewrite cos_plus. field. split; assumption. }
  assert (Hm2 : (2 <= m)%nat) by lia.
  assert (H1 : one_wave_length n m (INR n * hx) (INR m * hy) ((IZR kap / (INR m * hy)) ^ 2) (rfftn w)).
  { intros i b Hi Hb _. rewrite (GW i b Hi Hb). destruct (Z.eqb_spec i 0) as [->|]; [|left; reflexivity]. destruct (Z.eqb_spec b kap) as [->|]; [right | left; reflexivity].
    replace (row_wave n 0) with 0 by (unfold row_wave; zb; lia). unfold Rdiv. ring. }
  destruct (@single_wave_length_is_steady_lem g n m hx hy _ smooth (rfftn w) Hg Hm2 SW H1) as (N & EN & SN & ZN).
  destruct (@velocity_symbols g n m hx hy (rfftn w) Hg SW) as (U & V & EV & _).
  destruct (@kolmogorov_two g n m hx hy dx lo hi Hg Hd (irfftn U) (irfftn V)) as (f & fx & fy & Ef & Eu & Sx & Sy & Vx & Vy).
  destruct (@ns2d_forcing_adds_curl_lem g n m hx hy smooth (rfftn w) U V _ fx fy Hg SW EV Eu Sx Sy) as (N0 & E & EN0 & EE & _ & SE & GE). rewrite EN in EN0. injection EN0 as <-.
  destruct (@wave_rfftn n m kap (Cmul (mkC 0 (- 1)) (Cscal (INR n * INR m / 2) th)) fx Sx Hn Hk) as (_ & GF).
  { intros i j. rewrite Vx, Hy4. unfold th, cis. cbn. rewrite sin_plus. field. split; assumption. }
  assert (GY : forall p q, get (rfftn fy) [p; q] = C0).
  { intros p q. destruct (rfftn2 fy Sy) as [_ G]. rewrite G. apply sum_zero_fft2. intros i j. rewrite Vy. reflexivity. }
  exists E. unfold forced_ns2d_implicit_terms, ns2d_implicit_terms, ns2d_linear_term. rewrite (rfft_mesh2 Hg). cbn [bind]. rewrite ew_ok by (rewrite SW; reflexivity).
  eexists. split; [unfold forced_ns2d_explicit_terms; rewrite Ef; exact EE|]. split; [reflexivity|]. split; [exact SE|]. split; [reflexivity|].
  intros i b Hi Hb. rewrite (GE i b Hi Hb), (ZN i b Hi Hb), GY. cbn [get amap2 mesh_x mesh_y nth]. rewrite (GF i b Hi Hb), (GW i b Hi Hb). unfold spectral_curl.
  destruct (Z.eqb_spec i 0) as [->|]; [|cbn [andb]; ceq]. destruct (Z.eqb_spec b kap) as [->|]; [|cbn [andb]; ceq]. cbn [andb].
  replace (signed n 0) with 0 by (unfold signed; zb; lia). replace (row_wave n 0) with 0 by (unfold row_wave; zb; lia).
  assert (Hf : (2 * PI * freq m hy kap = 4)%R).
  { unfold freq. replace (2 * PI * (IZR kap / (INR m * hy)))%R with (2 * PI * IZR kap / (INR m * hy))%R by (unfold Rdiv; ring). rewrite <- HL. field. split; [lra | exact HmR]. }
  set (k := freq m hy kap) in *. clearbody k th. destruct th as [tr ti].
  assert (F0 : freq n hx 0 = 0%R) by (unfold freq, Rdiv; ring). rewrite F0.
  assert (HA : (A * (nu * 16 + 1 / 10) = - 4)%R) by (unfold A; field; lra). set (c := (INR n * INR m)%R). clearbody c A. clear - Hf HA.
  assert (H16 : ((2 * PI) ^ 2 * k ^ 2 = 16)%R) by (replace ((2 * PI) ^ 2 * k ^ 2)%R with ((2 * PI * k) ^ 2)%R by ring; rewrite Hf; ring).
  apply Ceq; cbn.
  - transitivity (- (c / 2 * tr) * ((2 * PI * k) + A * (nu * ((2 * PI) ^ 2 * k ^ 2) + 1 / 10)))%R; [field|]. rewrite Hf, H16, HA. ring.
  - transitivity (- (c / 2 * ti) * ((2 * PI * k) + A * (nu * ((2 * PI) ^ 2 * k ^ 2) + 1 / 10)))%R; [field|]. rewrite Hf, H16, HA. ring.
Qed.
Definition kol_grid : grid := mkgrid [4%nat; 16%nat] [1%R; (PI / 8)%R] [(0%R, 4%R); (0%R, (2 * PI)%R)].
Lemma kol_grid_ok : grid2 kol_grid 4 16 1 (PI / 8).
Proof. pose proof PI_RGT_0. repeat split; try lia; lra. Qed.
(* @ex *)
Lemma laminar_kolmogorov_flow_ex_lem : grid2 kol_grid 4 16 1 (PI / 8) /\ gdomain kol_grid = [(0%R, 4%R); (0%R, (2 * PI)%R)] /\ 0 < 2 * 4 < Z.of_nat 16 /\ (4 * (INR 16 * (PI / 8)) = 2 * PI * IZR 4)%R.
Proof. split; [exact kol_grid_ok|]. split; [reflexivity|]. split; [lia|]. cbn [INR]. lra. Qed.
(* @ex *)
Lemma ns2d_forcing_adds_curl_ex_lem : exists U V f fx fy, vorticity_to_velocity kol_grid (afull [4%nat; 9%nat] C1) = Ok (U, V) /\ kolmogorov_forcing kol_grid 1 4 false (Some [[0; 0]; [0; 0]]%Q) = Ok f /\
  unpacked_forcing kol_grid f (irfftn U) (irfftn V) = Ok (fx, fy) /\ shp fx = [4%nat; 16%nat] /\ shp fy = [4%nat; 16%nat].
Proof.
  destruct (@velocity_symbols kol_grid 4 16 1 (PI / 8) (afull [4%nat; 9%nat] C1) kol_grid_ok eq_refl) as (U & V & E & _). exists U, V.
  destruct (@kolmogorov_two kol_grid 4 16 1 (PI / 8) _ _ _ kol_grid_ok eq_refl (irfftn U) (irfftn V)) as (f & fx & fy & A & B & C & D & _). exists f, fx, fy. auto.
Qed.

(** ** The exponential filter *)
Lemma signed_nneg2 n p : (0 < n)%nat -> 0 <= p < Z.of_nat n -> (IZR (signed n (nneg n p)) ^ 2 = IZR (signed n p) ^ 2)%R.
Proof.
  intros Hn Hp. destruct (Z.eq_dec p 0) as [->|H0]; [replace (nneg n 0) with 0 by (unfold nneg; cbn; reflexivity); reflexivity|].
  assert (E : nneg n p = Z.of_nat n - p) by (unfold nneg; symmetry; apply Z.mod_unique with (q := -1); lia). rewrite E.
  destruct (Z.eq_dec (2 * p) (Z.of_nat n)) as [E2|E2]; [replace (Z.of_nat n - p) with p by lia; reflexivity|].
  assert (Es : signed n (Z.of_nat n - p) = - signed n p) by (unfold signed; zb; lia). rewrite Es, opp_IZR. ring.
Qed.
(** The factor by which the filter multiplies the wave (a, b). *)
Definition damping (n : nat) (alpha : R) (order : nat) (a b : Z) : R := Rpower alpha (((IZR a / INR n) ^ 2 + (IZR b / INR n) ^ 2) ^ order).
Lemma sigma_damping n alpha order i b : get (exponential_sigma n alpha order) [i; b] = damping n alpha order (signed n i) b.
Proof.
  unfold exponential_sigma, damping, Rpower. cbn [get nth]. f_equal. rewrite Ropp_involutive, Rmult_comm. f_equal.
  rewrite pow_mult. f_equal. rewrite <- Rsqr_pow2, Rsqr_sqrt.
  - rewrite fftfreq_signed. unfold rfftfreq, freq. rewrite Rmult_1_r. reflexivity.
  - pose proof (pow2_ge_0 (fftfreq n 1 i)). pose proof (pow2_ge_0 (rfftfreq n 1 b)). lra.
Qed.
Lemma damping_range n alpha order a b : (0 < alpha <= 1)%R -> (0 < damping n alpha order a b <= 1)%R.
Proof.
  intros Ha. unfold damping, Rpower. split; [apply exp_pos|]. rewrite <- exp_0. set (x := (_ ^ order)%R).
  assert (0 <= x)%R. { apply pow_le. pose proof (pow2_ge_0 (IZR a / INR n)). pose proof (pow2_ge_0 (IZR b / INR n)). lra. }
  assert (ln alpha <= 0)%R. { rewrite <- ln_1. destruct Ha as [H1 [H2|H2]]; [left; apply ln_increasing; lra | subst; right; reflexivity]. }
  assert (x * ln alpha <= 0)%R by nra. destruct (Req_dec (x * ln alpha) 0) as [E|E]; [rewrite E; right; reflexivity | left; apply exp_increasing; lra].
Qed.
Lemma ifft2_real_sum n m (a : Z -> Z -> R) (H : Z -> Z -> cplx) : (0 < n)%nat -> (0 < m)%nat ->
  (forall i j, 0 <= i < Z.of_nat n -> 0 <= j < Z.of_nat m -> RtoC (a i j) = ifft2 n m H i j) ->
  (forall p q, 0 <= p < Z.of_nat n -> 0 <= q < Z.of_nat m -> H (nneg n p) (nneg m q) = Cconj (H p q)) ->
  asum [n; m] (fun ix => a (nth 0 ix 0%Z) (nth 1 ix 0%Z) ^ 2)%R = (/ (INR n * INR m) * asum [n; m] (fun ix => Cn2 (H (nth 0 ix 0%Z) (nth 1 ix 0%Z))))%R.
Proof.
  intros Hn Hm Ha Hs. assert (E : RtoC (asum [n; m] (fun ix => a (nth 0 ix 0%Z) (nth 1 ix 0%Z) ^ 2)%R) = RtoC (/ (INR n * INR m) * asum [n; m] (fun ix => Cn2 (H (nth 0 ix 0%Z) (nth 1 ix 0%Z))))%R).
  - rewrite RtoC_asum2. cbn [nth].
    rewrite (@csum2_ext n m _ (fun i j => Cmul (ifft2 n m H i j) (ifft2 n m H i j))) by (intros i j Hi Hj; rewrite <- Ha by assumption; ceq).
    rewrite sum_pair by assumption. transitivity (Cscal (/ (INR n * INR m)) (RtoC (asum [n; m] (fun ix => Cn2 (H (nth 0 ix 0%Z) (nth 1 ix 0%Z)))))); [|ceq]. f_equal.
    rewrite RtoC_asum2. cbn [nth]. apply csum2_ext. intros p q Hp Hq. rewrite Hs by assumption. unfold Cn2. ceq.
  - apply (f_equal re) in E. exact E.
Qed.
(* @prop C41 exponential_filter on a square field with an even number of points per side, for every order >= 1 and every 0 < alpha <= 1: it succeeds and keeps the shape; the wave (a, b) of the result is the wave of the signal times alpha ^ (((a/n)^2 + (b/n)^2) ^ order), a factor between 0 and 1; so the mean is kept and the sum of squares does not grow. *)
Lemma exponential_filter_damps_lem : forall (n : nat) (signal : arr R) (alpha : R) (order : nat), (0 < n)%nat -> Nat.Even n -> shp signal = [n; n] -> (0 < alpha <= 1)%R -> (0 < order)%nat ->
  exists out, exponential_filter signal alpha order = Ok out /\ shp out = [n; n] /\
    (forall i b, 0 <= i < Z.of_nat n -> 0 <= b <= Z.of_nat (n / 2) ->
       let factor := Rpower alpha (((IZR (row_wave n i) / INR n) ^ 2 + (IZR b / INR n) ^ 2) ^ order) in
       (0 < factor <= 1)%R /\ get (rfftn out) [i; b] = Cscal factor (get (rfftn signal) [i; b])) /\
    asum [n; n] (get out) = asum [n; n] (get signal) /\ (asum [n; n] (fun ix => get out ix ^ 2) <= asum [n; n] (fun ix => get signal ix ^ 2))%R.
Proof.
  intros n signal alpha order Hn He Ss Ha Ho. destruct (rfftn2 signal Ss) as [S1 G1]. unfold exponential_filter. rewrite Ss. rewrite ew_ok by (rewrite S1; reflexivity). cbn [bind].
  set (P := amap2 Cscal (exponential_sigma n alpha order) (rfftn signal)). destruct (@irfftn2 P n n eq_refl Hn Hn He) as [S2 G2].
  eexists. split; [reflexivity|]. split; [exact S2|].
  set (X := fft2 n n (fun i j => RtoC (get signal [i; j]))).
  set (s2 := fun q => if 2 * q <=? Z.of_nat n then q else Z.of_nat n - q).
  set (d := fun p q => damping n alpha order (signed n p) (s2 q)).
  assert (GP : forall p q, get P [p; q] = Cscal (damping n alpha order (signed n p) q) (X p q)). { intros p q. unfold P. cbn [get amap2]. rewrite sigma_damping, G1. reflexivity. }
  assert (Hnn : forall p q, 0 <= p < Z.of_nat n -> damping n alpha order (signed n (nneg n p)) q = damping n alpha order (signed n p) q).
  { intros p q Hp. unfold damping. f_equal. f_equal. f_equal. unfold Rdiv. rewrite !Rpow_mult_distr, signed_nneg2 by assumption. reflexivity. }
  assert (HX : forall p q, 0 <= q < Z.of_nat n -> herm2 n n X p q = X p q) by (intros; apply (@herm2_real n n (fun i j => get signal [i; j])); assumption).
  assert (HH : forall p q, 0 <= p < Z.of_nat n -> 0 <= q < Z.of_nat n -> herm2 n n (fun p q => get P [p; q]) p q = Cscal (d p q) (X p q)).
  { intros p q Hp Hq. rewrite <- (HX p q Hq). unfold herm2, d, s2. rewrite !GP, !Hnn by assumption. destruct (Z.leb_spec (2 * q) (Z.of_nat n)); zb; try lia; try reflexivity; ceq. }
  assert (GO : forall i j, RtoC (get (irfftn P) [i; j]) = ifft2 n n (fun p q => Cscal (d p q) (X p q)) i j).
  { intros i j. rewrite G2. apply ifft2_ext. intros p q Hp Hq. apply HH; assumption. }
  destruct (rfftn2 _ S2) as [S3 G3].
  assert (GR : forall p q, 0 <= p < Z.of_nat n -> 0 <= q < Z.of_nat n -> get (rfftn (irfftn P)) [p; q] = Cscal (d p q) (X p q)).
  { intros p q Hp Hq. rewrite G3. rewrite (@fft2_ext n n _ (ifft2 n n (fun p q => Cscal (d p q) (X p q)))) by (intros; apply GO). apply fft2_ifft2; assumption. }
  assert (Hhalf : forall b, 0 <= b <= Z.of_nat (n / 2) -> 2 * b <= Z.of_nat n).
  { intros b Hb. rewrite Nat2Z.inj_div in Hb. pose proof (Z.mul_div_le (Z.of_nat n) 2 ltac:(lia)). change (Z.of_nat 2) with 2 in Hb. lia. }
  split; [|split].
  - intros i b Hi Hb. cbv zeta. specialize (Hhalf b Hb). split; [exact (@damping_range n alpha order (row_wave n i) b Ha)|]. rewrite GR by lia. rewrite G1. unfold d, s2. replace (2 * b <=? Z.of_nat n) with true by (symmetry; apply Z.leb_le; exact Hhalf). reflexivity.
  - assert (E : RtoC (asum [n; n] (get (irfftn P))) = RtoC (asum [n; n] (get signal))).
    { rewrite !RtoC_asum2. rewrite <- !fft2_00. rewrite <- G3, GR by lia. fold X. assert (D0 : d 0 0 = 1%R).
      { unfold d, s2, damping. rewrite (proj2 (Z.leb_le (2 * 0) (Z.of_nat n))) by lia. replace (signed n 0) with 0 by (unfold signed; zb; lia).
        replace ((0 / INR n) ^ 2 + (0 / INR n) ^ 2)%R with 0%R by (unfold Rdiv; ring). rewrite pow_i by exact Ho. unfold Rpower. rewrite Rmult_0_l. apply exp_0. }
      rewrite D0. ceq. }
    apply (f_equal re) in E. exact E.
  - assert (HXs : forall p q, X (nneg n p) (nneg n q) = Cconj (X p q)) by (intros; apply (@fft2_real_neg n n (fun i j => get signal [i; j])); assumption).
    assert (Hd : forall p q, 0 <= p < Z.of_nat n -> 0 <= q < Z.of_nat n -> d (nneg n p) (nneg n q) = d p q).
    { intros p q Hp Hq. unfold d. rewrite Hnn by exact Hp. f_equal. unfold s2. destruct (Z.eq_dec q 0) as [->|H0]; [replace (nneg n 0) with 0 by reflexivity; reflexivity|].
      replace (nneg n q) with (Z.of_nat n - q) by (unfold nneg; apply Z.mod_unique with (q := -1); lia). destruct (Z.leb_spec (2 * (Z.of_nat n - q)) (Z.of_nat n)), (Z.leb_spec (2 * q) (Z.of_nat n)); lia. }
    assert (E1 := @ifft2_real_sum n n (fun i j => get (irfftn P) [i; j]) _ Hn Hn (fun i j _ _ => GO i j)). cbv beta in E1.
    assert (E2 := @ifft2_real_sum n n (fun i j => get signal [i; j]) X Hn Hn). cbv beta in E2.
    change (asum [n; n] (fun ix => get (irfftn P) ix ^ 2)%R) with (asum [n; n] (fun ix => get (irfftn P) [nth 0 ix 0%Z; nth 1 ix 0%Z] ^ 2)%R).
    change (asum [n; n] (fun ix => get signal ix ^ 2)%R) with (asum [n; n] (fun ix => get signal [nth 0 ix 0%Z; nth 1 ix 0%Z] ^ 2)%R).
    rewrite E1, E2; [| | intros; apply HXs |].
    + apply Rmult_le_compat_l; [left; apply Rinv_0_lt_compat; apply Rmult_lt_0_compat; apply lt_0_INR; lia|]. apply asum_le. intros ix Hix. destruct ix as [|p [|q [|? ?]]]; cbn [inb] in Hix; try tauto. cbn [nth].
      pose proof (@damping_range n alpha order (signed n p) (s2 q) Ha) as R0. fold (d p q) in R0. unfold Cn2. cbn. pose proof (Rle_0_sqr (re (X p q))) as A1. pose proof (Rle_0_sqr (im (X p q))) as A2. unfold Rsqr in A1, A2.
      assert (D2 : (d p q * d p q <= 1)%R) by nra. nra.
    + intros i j Hi Hj. unfold X. rewrite ifft2_fft2 by assumption. reflexivity.
    + intros p q Hp Hq. rewrite Hd, HXs by assumption. ceq.
Qed.
(* @ex *)
Lemma exponential_filter_damps_ex_lem : (0 < 4)%nat /\ Nat.Even 4 /\ shp (afull [4%nat; 4%nat] 3%R) = [4%nat; 4%nat] /\ (0 < / 1000000 <= 1)%R /\ (0 < 2)%nat.
Proof. split; [lia|]. split; [exists 2%nat; reflexivity|]. split; [reflexivity|]. split; [lra | lia]. Qed.
(* @prop C41 On a square field with an odd number n of points per side exponential_filter does not keep the shape: it returns an n x (n - 1) array. *)
Lemma exponential_filter_odd_refuted_lem : forall (n : nat) (signal : arr R) (alpha : R) (order : nat), Nat.Odd n -> shp signal = [n; n] ->
  exists out, exponential_filter signal alpha order = Ok out /\ shp out = [n; (n - 1)%nat].
Proof.
  intros n signal alpha order (k & Hk) Ss. destruct (rfftn2 signal Ss) as [S1 _]. unfold exponential_filter. rewrite Ss. rewrite ew_ok by (rewrite S1; reflexivity). cbn [bind].
  eexists. split; [reflexivity|]. match goal with |- shp (irfftn ?p) = _ => destruct (@irfftn2_raw p n (n / 2 + 1) eq_refl) as [S _] end. rewrite S. f_equal. f_equal.
  subst n. replace (2 * k + 1)%nat with (1 + k * 2)%nat by lia. rewrite Nat.div_add by lia. cbn [Nat.div Nat.divmod fst]. lia.
Qed.
