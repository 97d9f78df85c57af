(** * C92: the filtered spectral step *)
From Verif Require Import Prelude NdArr LinAlg Cplx Grids_model Boundaries_model FD_model Advection_model FastDiag_model TimeStep_model TimeStepProps Forcings_model FourierProofs FourierLine Spectral_model SpectralProps SpectralUtilProps FourierPlane SpecFourier NS2DBase NS2DProps SpectralStep_model SpecStep StepRel NS2DConserve NS2DMoreProps NS2DWaveProps SpectralRunProps NS2DRunProps ForcedNS_model NS2DForceProps SpecKS SpectralML_model SpecSpectralML.
Set Implicit Arguments.
Local Open Scope Z_scope.

Lemma spectrum_of_field n (x : arr cplx) : (0 < n)%nat -> Nat.Even n -> shp x = [n; (n / 2 + 1)%nat] -> shp (irfftn x) = [n; n] /\ shp (rfftn (irfftn x)) = [n; (n / 2 + 1)%nat] /\
  forall p q, 0 <= p < Z.of_nat n -> 0 <= q < Z.of_nat n -> get (rfftn (irfftn x)) [p; q] = herm2 n n (fun p q => get x [p; q]) p q.
Proof.
  intros Hn He Sx. destruct (@irfftn2 x n n Sx Hn Hn He) as [S2 G2]. destruct (rfftn2 _ S2) as [S3 G3]. split; [exact S2|]. split; [exact S3|]. intros p q Hp Hq.
  rewrite G3. rewrite (@fft2_ext n n _ (ifft2 n n (herm2 n n (fun p q => get x [p; q])))) by (intros; apply G2). apply fft2_ifft2; assumption.
Qed.
Lemma field_of_spectrum n (w : arr R) : (0 < n)%nat -> Nat.Even n -> shp w = [n; n] -> shp (irfftn (rfftn w)) = [n; n] /\ forall i j, 0 <= i < Z.of_nat n -> 0 <= j < Z.of_nat n -> get (irfftn (rfftn w)) [i; j] = get w [i; j].
Proof.
  intros Hn He Sw. destruct (rfftn2 w Sw) as [S1 G1]. destruct (@irfftn2 (rfftn w) n n S1 Hn Hn He) as [S2 G2]. split; [exact S2|]. intros i j Hi Hj.
  assert (E : RtoC (get (irfftn (rfftn w)) [i; j]) = RtoC (get w [i; j])).
  { rewrite G2. rewrite (@ifft2_ext n n _ (fft2 n n (fun i j => RtoC (get w [i; j])))).
    - apply ifft2_fft2; assumption.
    - intros p q Hp Hq. rewrite <- (@herm2_real n n (fun i j => get w [i; j]) p q Hn Hn Hq). unfold herm2. rewrite !G1. reflexivity. }
  apply (f_equal re) in E. exact E.
Qed.
Lemma half_in n b : 0 <= b <= Z.of_nat (n / 2) -> (2 <= n)%nat -> 0 <= b < Z.of_nat n /\ 2 * b <= Z.of_nat n.
Proof. intros Hb Hn. rewrite Nat2Z.inj_div in Hb. pose proof (Z.mul_div_le (Z.of_nat n) 2 ltac:(lia)). change (Z.of_nat 2) with 2 in Hb. lia. Qed.
Lemma asum2_get n (f h : arr R) : (forall i j, 0 <= i < Z.of_nat n -> 0 <= j < Z.of_nat n -> get f [i; j] = get h [i; j]) -> asum [n; n] (fun ix => get f ix ^ 2)%R = asum [n; n] (fun ix => get h ix ^ 2)%R.
Proof.
  intros H. apply asum_ext. intros ix Hix. destruct ix as [|p [|q [|? ?]]]; cbn [inb] in Hix; try tauto. rewrite H by tauto. reflexivity.
Qed.

(* @prop C92 modular_spectral_step_fn with do_filter_step=True, for every scheme, forcing, viscosity, drag and dt, on every square grid with an even number n of points per side: whenever the step without the filter succeeds with spectrum x, so does the step with it, and its result is the spectrum of a real n x n field; its wave (a, b) is the wave of the real field of x times 10^(-6 ((a/n)^2 + (b/n)^2)^2); its mean vorticity is exactly that of x; and its enstrophy (the sum of squares of the vorticity field) is at most that of x. *)
Lemma filtered_step_lem : forall (g : grid) (n : nat) (nu drag dt : R) (smooth : bool) forcing (k : spectral_scheme) (W x : arr cplx),
  (2 <= n)%nat -> Nat.Even n -> shp W = [n; (n / 2 + 1)%nat] ->
  modular_spectral_step g smooth forcing nu drag k dt false W = Ok x ->
  exists out, modular_spectral_step g smooth forcing nu drag k dt true W = Ok out /\ shp out = shp W /\
    (exists f, shp f = [n; n] /\ out = rfftn f) /\
    (forall i b, 0 <= i < Z.of_nat n -> 0 <= b <= Z.of_nat (n / 2) -> (0 < filter_factor n i b <= 1)%R /\ get out [i; b] = Cscal (filter_factor n i b) (get (rfftn (irfftn x)) [i; b])) /\
    get out [0; 0] = RtoC (re (get x [0; 0])) /\
    (asum [n; n] (fun ix => get (irfftn out) ix ^ 2) <= asum [n; n] (fun ix => get (irfftn x) ix ^ 2))%R.
Proof.
  intros g n nu drag dt smooth forcing k W x Hn2 He Hw Ex. unfold modular_spectral_step in *.
  destruct (ns2d_run g (Some smooth) forcing nu drag k dt 1 W) as [x'|e] eqn:Er; cbn [bind] in Ex; [|discriminate Ex]. injection Ex as ->. cbn [bind].
  assert (Sx : shp x = [n; (n / 2 + 1)%nat]).
  { unfold ns2d_run in Er. destruct (spectral_steps k _ _ _ dt 1 (of_carr W)) as [v|]; cbn [bind] in Er; [|discriminate Er]. injection Er as <-. exact Hw. }
  assert (Hn : (0 < n)%nat) by lia. destruct (@spectrum_of_field n x Hn He Sx) as (S1 & S2 & G).
  destruct (@exponential_filter_damps_lem n (irfftn x) (/ 1000000) 2 Hn He S1 ltac:(lra) ltac:(lia)) as (f & Ef & Sf & Hf & _ & Hs).
  rewrite Ef. cbn [bind]. exists (rfftn f). split; [reflexivity|]. destruct (rfftn2 f Sf) as [S3 _]. split; [congruence|]. split; [eauto|]. split; [exact Hf|]. split.
  - destruct (Hf 0 0 ltac:(lia) ltac:(lia)) as (_ & E). rewrite E, G by lia. unfold herm2. rewrite Z.eqb_refl. replace (nneg n 0) with 0 by (symmetry; apply Z.mod_0_l; lia).
    replace (Rpower _ _) with 1%R; [apply Ceq; cbn; field|]. symmetry. replace (row_wave n 0) with 0 by (unfold row_wave; rewrite (proj2 (Z.ltb_lt _ _)) by lia; reflexivity).
    replace ((0 / INR n) ^ 2 + (0 / INR n) ^ 2)%R with 0%R by (unfold Rdiv; ring). rewrite pow_i by lia. unfold Rpower. rewrite Rmult_0_l. apply exp_0.
  - rewrite (@asum2_get n (irfftn (rfftn f)) f); [exact Hs|]. apply (@field_of_spectrum n f Hn He Sf).
Qed.

(* @prop C92 The filter needs a square grid: if the grid has n x m points with m even and n / 2 <> m / 2, the step with do_filter_step=True always fails. *)
Lemma filter_needs_square_lem : forall (g : grid) (n m : nat) (nu drag dt : R) (smooth : bool) forcing (k : spectral_scheme) (W : arr cplx),
  Nat.Even m -> (0 < n)%nat -> (0 < m)%nat -> (n / 2 <> m / 2)%nat -> shp W = [n; (m / 2 + 1)%nat] -> ~ is_ok (modular_spectral_step g smooth forcing nu drag k dt true W).
Proof.
  intros g n m nu drag dt smooth forcing k W He Hn Hm Hne Hw (out & E). unfold modular_spectral_step in E.
  destruct (ns2d_run g (Some smooth) forcing nu drag k dt 1 W) as [x|e] eqn:Er; cbn [bind] in E; [|discriminate E].
  assert (Sx : shp x = [n; (m / 2 + 1)%nat]).
  { unfold ns2d_run in Er. destruct (spectral_steps k _ _ _ dt 1 (of_carr W)) as [v|]; cbn [bind] in Er; [|discriminate Er]. injection Er as <-. exact Hw. }
  destruct (@irfftn2 x n m Sx Hn Hm He) as [S2 _]. destruct (rfftn2 _ S2) as [S3 _].
  destruct (exponential_filter (irfftn x) (/ 1000000) 2) as [f|] eqn:Ef; cbn [bind] in E; [|discriminate E]. unfold exponential_filter in Ef. rewrite S2 in Ef.
  destruct (ew Cscal (exponential_sigma n (/ 1000000) 2) (rfftn (irfftn x))) as [p|] eqn:Ep; cbn [bind] in Ef; [|discriminate Ef].
  apply ew_inv in Ep. destruct Ep as [Es _]. rewrite S3 in Es. cbn [exponential_sigma shp] in Es. apply Hne. assert (E2 := f_equal (fun l => nth 1 l 0%nat) Es). cbn [nth] in E2. unfold exponential_sigma in E2. cbn [shp nth] in E2. apply (Nat.add_cancel_r _ _ 1). congruence.
Qed.

(* @ex *)
Lemma filter_needs_square_ex_lem : Nat.Even 6 /\ (4 / 2 <> 6 / 2)%nat /\ shp (mkarr [4%nat; 4%nat] (fun _ => C1)) = [4%nat; (6 / 2 + 1)%nat].
Proof. split; [exists 3%nat; reflexivity|]. split; [cbn; lia | reflexivity]. Qed.
(** ** flows with a single wave length *)
Lemma mode_rate_neg n Lx Ly nu drag p q : (0 < n)%nat -> 0 <= p < Z.of_nat n -> mode_rate n n Lx Ly nu drag (nneg n p) q = mode_rate n n Lx Ly nu drag p q.
Proof.
  intros Hn Hp. unfold mode_rate. assert (E : (IZR (row_wave n (nneg n p)) ^ 2 = IZR (row_wave n p) ^ 2)%R) by (exact (@signed_nneg2 n p Hn Hp)).
  unfold Rdiv. rewrite !Rpow_mult_distr, E. reflexivity.
Qed.
Lemma filter_factor_neg n p q : (0 < n)%nat -> 0 <= p < Z.of_nat n -> filter_factor n (nneg n p) q = filter_factor n p q.
Proof.
  intros Hn Hp. unfold filter_factor. assert (E : (IZR (row_wave n (nneg n p)) ^ 2 = IZR (row_wave n p) ^ 2)%R) by (exact (@signed_nneg2 n p Hn Hp)).
  unfold Rdiv. rewrite !Rpow_mult_distr, E. reflexivity.
Qed.
Lemma herm2_scaled n (w : arr R) (x : arr cplx) (c : Z -> Z -> R) : (2 <= n)%nat -> shp w = [n; n] ->
  (forall p q, 0 <= p < Z.of_nat n -> c (nneg n p) q = c p q) ->
  (forall i b, 0 <= i < Z.of_nat n -> 0 <= b <= Z.of_nat (n / 2) -> get x [i; b] = Cscal (c i b) (get (rfftn w) [i; b])) ->
  forall i b, 0 <= i < Z.of_nat n -> 0 <= b <= Z.of_nat (n / 2) -> herm2 n n (fun p q => get x [p; q]) i b = Cscal (c i b) (get (rfftn w) [i; b]).
Proof.
  intros Hn Sw Hc Hx i b Hi Hb. destruct (rfftn2 w Sw) as [_ G]. destruct (half_in Hb Hn) as [Hb1 Hb2].
  assert (Hi' : 0 <= nneg n i < Z.of_nat n) by (unfold nneg; apply Z.mod_pos_bound; lia).
  pose proof (@herm2_real n n (fun i j => get w [i; j]) i b ltac:(lia) ltac:(lia) Hb1) as HR. rewrite <- G in HR. unfold herm2 in *. rewrite !Hx by assumption. rewrite !Hc by assumption.
  rewrite <- !G in HR. destruct (b =? 0); [|destruct (2 * b <? Z.of_nat n) eqn:E1; [reflexivity|destruct (2 * b =? Z.of_nat n) eqn:E2]].
  - match type of HR with ?l = _ => transitivity (Cscal (c i b) l) end; [ceq | rewrite HR; reflexivity].
  - match type of HR with ?l = _ => transitivity (Cscal (c i b) l) end; [ceq | rewrite HR; reflexivity].
  - apply Z.ltb_ge in E1. apply Z.eqb_neq in E2. lia.
Qed.

Lemma one_wave_scaled n Lx Ly k2 (W V : arr cplx) (c : Z -> Z -> R) : one_wave_length n n Lx Ly k2 W ->
  (forall i b, 0 <= i < Z.of_nat n -> 0 <= b <= Z.of_nat (n / 2) -> get V [i; b] = Cscal (c i b) (get W [i; b])) -> one_wave_length n n Lx Ly k2 V.
Proof. intros H HV i b Hi Hb K. destruct (H i b Hi Hb K) as [E|E]; [left; rewrite HV, E by assumption; ceq | right; exact E]. Qed.
Lemma plain_step g n hx hy k2 nu drag dt smooth k (A : R -> R) (V : arr cplx) : grid2 g n n hx hy -> (2 <= n)%nat -> shp V = [n; (n / 2 + 1)%nat] ->
  one_wave_length n n (INR n * hx) (INR n * hy) k2 V ->
  let rate := mode_rate n n (INR n * hx) (INR n * hy) nu drag in
  (forall i b, 0 <= i < Z.of_nat n -> 0 <= b <= Z.of_nat (n / 2) -> amplification k dt (rate i b) = Ok (A (rate i b))) ->
  exists x, modular_spectral_step g smooth None nu drag k dt false V = Ok x /\ shp x = [n; (n / 2 + 1)%nat] /\
    forall i b, 0 <= i < Z.of_nat n -> 0 <= b <= Z.of_nat (n / 2) -> get x [i; b] = Cscal (A (rate i b)) (get V [i; b]).
Proof.
  intros Hg Hn SV H1 rate HA. unfold modular_spectral_step. pose proof (@single_wave_length_runs_lem g n n hx hy k2 nu drag dt (Some smooth) k 1 V Hg Hn SV H1) as H.
  set (lam := fun x : bool * (Z * Z) => mode_rate n n (INR n * hx) (INR n * hy) nu drag (fst (snd x)) (snd (snd x))) in *.
  set (u0 := fun x : bool * (Z * Z) => let z := get V [fst (snd x); snd (snd x)] in if fst x then im z else re z) in *.
  pose proof (@linear_one _ lam k dt u0) as L.
  destruct (linear_run lam k dt 1 u0) as [y|e].
  - destruct (ns2d_run g (Some smooth) None nu drag k dt 1 V) as [x|]; cbn [res_rel] in H; [|contradiction]. destruct H as (S & _ & E). exists x. split; [reflexivity|]. split; [congruence|].
    intros i b Hi Hb. rewrite (E i b Hi Hb). assert (Y : forall c, y (c, (i, b)) = (A (rate i b) * u0 (c, (i, b)))%R).
    { intros c. specialize (L (c, (i, b))). change (lam (c, (i, b))) with (rate i b) in L. rewrite (HA i b Hi Hb) in L. exact L. }
    rewrite !Y. unfold u0. cbn [fst snd]. apply Ceq; reflexivity.
  - exfalso. specialize (L (false, (0, 0))). change (lam (false, (0, 0))) with (rate 0 0) in L. rewrite (HA 0 0) in L by lia. exact L.
Qed.
Definition rk4_factor (dt lam : R) : R := match amplification rk4_scheme dt lam with Ok a => a | Err _ => 0%R end.
Lemma rk4_amplification dt lam : amplification rk4_scheme dt lam = Ok (rk4_factor dt lam).
Proof. unfold rk4_factor. destruct (amplification_factors_lem dt lam) as (_ & _ & L & _). unfold rk4_scheme in *. rewrite L by reflexivity. reflexivity. Qed.
(* @ex *)
Lemma filtered_step_ex_lem : (2 <= 6)%nat /\ Nat.Even 6 /\ shp two_waves = [6%nat; (6 / 2 + 1)%nat] /\ get two_waves [5; 1] = C1 /\
  exists x, modular_spectral_step sq_grid true None (1 / 1000) (1 / 10) rk4_scheme (1 / 10) false two_waves = Ok x.
Proof.
  destruct single_wave_length_is_steady_ex_lem as (Hg & S & H1 & _). split; [lia|]. split; [exists 3%nat; reflexivity|]. split; [reflexivity|]. split; [reflexivity|].
  destruct (@plain_step sq_grid 6 1 1 (2 / 36) (1 / 1000) (1 / 10) (1 / 10) true rk4_scheme (rk4_factor (1 / 10)) two_waves Hg ltac:(lia) S H1) as (x & E & _).
  - intros. apply rk4_amplification.
  - eauto.
Qed.
Lemma plain_runs g n hx hy k2 nu drag dt smooth k (A : R -> R) (W : arr cplx) : grid2 g n n hx hy -> (2 <= n)%nat -> shp W = [n; (n / 2 + 1)%nat] ->
  one_wave_length n n (INR n * hx) (INR n * hy) k2 W ->
  let rate := mode_rate n n (INR n * hx) (INR n * hy) nu drag in
  (forall i b, 0 <= i < Z.of_nat n -> 0 <= b <= Z.of_nat (n / 2) -> amplification k dt (rate i b) = Ok (A (rate i b))) -> forall steps,
  exists x, modular_spectral_run g smooth None nu drag k dt false steps W = Ok x /\ shp x = [n; (n / 2 + 1)%nat] /\
    forall i b, 0 <= i < Z.of_nat n -> 0 <= b <= Z.of_nat (n / 2) -> get x [i; b] = Cscal (A (rate i b) ^ steps) (get W [i; b]).
Proof.
  intros Hg Hn SW H1 rate HA. induction steps as [|s IH].
  - exists W. split; [reflexivity|]. split; [exact SW|]. intros. cbn [pow]. ceq.
  - destruct IH as (v & Ev & Sv & Hv). cbn [modular_spectral_run]. rewrite Ev. cbn [bind].
    destruct (@plain_step g n hx hy k2 nu drag dt smooth k A v Hg Hn Sv (@one_wave_scaled _ _ _ _ _ _ _ H1 Hv) HA) as (x & Ex & Sx & Hx). exists x. split; [exact Ex|]. split; [exact Sx|].
    intros i b Hi Hb. rewrite Hx, Hv by assumption. fold rate. cbn [pow]. ceq.
Qed.

(* @prop C92 Flows whose waves all have the same length (Taylor-Green vortices, Kolmogorov flow), with the filter on, on every square grid with an even number of points per side: the step functions never couple the waves; each step multiplies wave (a, b) by the scheme's amplification factor (as without the filter) and by the filter factor 10^(-6 ((a/n)^2 + (b/n)^2)^2), so the filter acts once per step, whatever the length of the step. *)
Lemma filtered_runs_lem : forall (g : grid) (n : nat) (hx hy k2 nu drag dt : R) (smooth : bool) (k : spectral_scheme) (A : R -> R) (w : arr R) (steps : nat),
  grid2 g n n hx hy -> (2 <= n)%nat -> Nat.Even n -> shp w = [n; n] -> one_wave_length n n (INR n * hx) (INR n * hy) k2 (rfftn w) ->
  let rate := mode_rate n n (INR n * hx) (INR n * hy) nu drag in
  (forall i b, 0 <= i < Z.of_nat n -> 0 <= b <= Z.of_nat (n / 2) -> amplification k dt (rate i b) = Ok (A (rate i b))) ->
  exists U V, modular_spectral_run g smooth None nu drag k dt false steps (rfftn w) = Ok U /\ modular_spectral_run g smooth None nu drag k dt true steps (rfftn w) = Ok V /\
    forall i b, 0 <= i < Z.of_nat n -> 0 <= b <= Z.of_nat (n / 2) ->
      get U [i; b] = Cscal (A (rate i b) ^ steps) (get (rfftn w) [i; b]) /\
      get V [i; b] = Cscal (A (rate i b) ^ steps * filter_factor n i b ^ steps) (get (rfftn w) [i; b]).
Proof.
  intros g n hx hy k2 nu drag dt smooth k A w steps Hg Hn He Sw H1 rate HA. destruct (rfftn2 w Sw) as [SW _].
  destruct (@plain_runs g n hx hy k2 nu drag dt smooth k A (rfftn w) Hg Hn SW H1 HA steps) as (U & EU & _ & HU). exists U.
  assert (HV : exists V, modular_spectral_run g smooth None nu drag k dt true steps (rfftn w) = Ok V /\ shp V = [n; (n / 2 + 1)%nat] /\
    forall i b, 0 <= i < Z.of_nat n -> 0 <= b <= Z.of_nat (n / 2) -> get V [i; b] = Cscal (A (rate i b) ^ steps * filter_factor n i b ^ steps) (get (rfftn w) [i; b])).
  { clear U EU HU. induction steps as [|s IH].
    - exists (rfftn w). split; [reflexivity|]. split; [exact SW|]. intros. cbn [pow]. ceq.
    - destruct IH as (v & Ev & Sv & Hv). cbn [modular_spectral_run]. rewrite Ev. cbn [bind].
      destruct (@plain_step g n hx hy k2 nu drag dt smooth k A v Hg Hn Sv (@one_wave_scaled _ _ _ _ _ _ _ H1 Hv) HA) as (x & Ex & Sx & Hx).
      destruct (@filtered_step_lem g n nu drag dt smooth None k v x Hn He Sv Ex) as (out & Eo & So & _ & Ho & _). exists out. split; [exact Eo|]. split; [congruence|].
      intros i b Hi Hb. destruct (Ho i b Hi Hb) as [_ E]. rewrite E. destruct (half_in Hb Hn) as [Hb1 _]. destruct (@spectrum_of_field n x ltac:(lia) He Sx) as (_ & _ & G). rewrite G by assumption.
      rewrite (@herm2_scaled n w x (fun i b => A (rate i b) * (A (rate i b) ^ s * filter_factor n i b ^ s))%R Hn Sw); [cbn [pow]; ceq | | | exact Hi | exact Hb].
      + intros p q Hp. unfold rate. rewrite mode_rate_neg, filter_factor_neg by (lia || assumption). reflexivity.
      + intros p q Hp Hq. rewrite Hx, Hv by assumption. fold rate. ceq. }
  destruct HV as (V & EV & _ & HV). exists V. split; [exact EU|]. split; [exact EV|]. intros i b Hi Hb. split; [apply HU; assumption | apply HV; assumption].
Qed.

(** A field with one wave: cos(2 pi j / 6) on a 6 x 6 grid. *)
Definition cosine_field : arr R := mkarr [6%nat; 6%nat] (fun ix => cos (2 * PI * IZR (nth 1 ix 0%Z) / 6))%R.
Lemma cosine_spectrum p q : 0 <= p < 6 -> 0 <= q <= 3 -> get (rfftn cosine_field) [p; q] = if (p =? 0) && (q =? 1) then RtoC 18 else C0.
Proof.
  intros Hp Hq. destruct (@wave_rfftn 6 6 1 (RtoC 18) cosine_field eq_refl ltac:(lia) ltac:(cbn; lia)) as [_ G].
  - intros i j. unfold cosine_field. cbn [get nth]. rewrite Z.mul_1_r. replace (INR 6) with 6%R by (cbn; ring). unfold cis, RtoC, Cmul. cbn [re im]. set (t := cos _). replace (2 / (6 * 6) * (18 * t - 0 * sin (2 * PI * IZR j / 6)))%R with t by field. reflexivity.
  - apply G; cbn; lia.
Qed.
Lemma cosine_one_wave : one_wave_length 6 6 (INR 6 * 1) (INR 6 * 1) (1 / 36) (rfftn cosine_field).
Proof.
  intros i b Hi Hb _. rewrite cosine_spectrum by (cbn in *; lia). destruct (Z.eqb_spec i 0) as [->|]; [|left; reflexivity]. destruct (Z.eqb_spec b 1) as [->|]; [|left; reflexivity].
  right. unfold row_wave. cbn [Z.ltb Z.of_nat Z.compare Z.mul]. cbn. lra.
Qed.
(* @ex *)
Lemma filtered_runs_ex_lem : grid2 sq_grid 6 6 1 1 /\ Nat.Even 6 /\ shp cosine_field = [6%nat; 6%nat] /\ one_wave_length 6 6 (INR 6 * 1) (INR 6 * 1) (1 / 36) (rfftn cosine_field) /\ get (rfftn cosine_field) [0; 1] = RtoC 18 /\
  exists A, forall i b, amplification rk4_scheme (1 / 10) (mode_rate 6 6 (INR 6 * 1) (INR 6 * 1) (1 / 1000) (1 / 10) i b) = Ok (A (mode_rate 6 6 (INR 6 * 1) (INR 6 * 1) (1 / 1000) (1 / 10) i b)).
Proof.
  split; [exact sq_grid_ok|]. split; [exists 3%nat; reflexivity|]. split; [reflexivity|]. split; [exact cosine_one_wave|]. split; [rewrite cosine_spectrum by lia; reflexivity|].
  exists (rk4_factor (1 / 10)). intros. apply rk4_amplification.
Qed.

(* @prop C92 (Defect) Because the filter acts once per step, the filtered model has no limit for small time steps other than rest: take any flow whose waves all have the same length, without viscosity and drag. It is an exact steady flow, and the default crank_nicolson_rk4 model without the filter returns it unchanged for every dt and number of steps. With the filter, and for any final time T, the wave (a, b) at time T computed with steps T/N tends to zero as N grows, for every wave but the mean. *)
Lemma filter_has_no_step_limit_lem : forall (g : grid) (n : nat) (hx hy k2 T : R) (smooth : bool) (w : arr R) (i b : Z),
  grid2 g n n hx hy -> (2 <= n)%nat -> Nat.Even n -> shp w = [n; n] -> one_wave_length n n (INR n * hx) (INR n * hy) k2 (rfftn w) ->
  0 <= i < Z.of_nat n -> 0 <= b <= Z.of_nat (n / 2) -> (i <> 0 \/ b <> 0) ->
  (forall steps, exists U, modular_spectral_run g smooth None 0 0 rk4_scheme (T / INR steps) false steps (rfftn w) = Ok U /\ get U [i; b] = get (rfftn w) [i; b]) /\
  (forall eps, (0 < eps)%R -> exists N, forall steps, (N <= steps)%nat ->
     exists V, modular_spectral_run g smooth None 0 0 rk4_scheme (T / INR steps) true steps (rfftn w) = Ok V /\ (Cabs (get V [i; b]) <= eps * Cabs (get (rfftn w) [i; b]))%R).
Proof.
  intros g n hx hy k2 T smooth w i b Hg Hn He Sw H1 Hi Hb K.
  assert (R0 : forall p q, mode_rate n n (INR n * hx) (INR n * hy) 0 0 p q = 0%R) by (intros; unfold mode_rate; ring).
  assert (HA : forall dt p q, amplification rk4_scheme dt (mode_rate n n (INR n * hx) (INR n * hy) 0 0 p q) = Ok 1%R).
  { intros dt p q. rewrite R0. destruct (amplification_factors_lem dt 0) as (_ & _ & L & _ & A1). specialize (A1 eq_refl rk4_scheme). unfold rk4_scheme in *.
    rewrite L in A1 |- * by reflexivity. f_equal. apply A1. reflexivity. }
  assert (Hf : (0 < filter_factor n i b < 1)%R).
  { unfold filter_factor, Rpower. split; [apply exp_pos|]. rewrite <- exp_0. apply exp_increasing.
    assert (ln (/ 1000000) < 0)%R by (rewrite <- ln_1; apply ln_increasing; lra).
    assert (0 < ((IZR (row_wave n i) / INR n) ^ 2 + (IZR b / INR n) ^ 2) ^ 2)%R; [|nra]. apply pow_lt.
    assert (Hnr : (0 < INR n)%R) by (apply lt_0_INR; lia). assert (P : forall z, z <> 0 -> (0 < (IZR z / INR n) ^ 2)%R).
    { intros z Hz. rewrite <- Rsqr_pow2. apply Rlt_0_sqr. unfold Rdiv. apply Rmult_integral_contrapositive_currified; [apply IZR_neq; exact Hz | apply Rinv_neq_0_compat; lra]. }
    destruct K as [K|K].
    - assert (Hr : row_wave n i <> 0) by (unfold row_wave; zb; lia). pose proof (P _ Hr). pose proof (pow2_ge_0 (IZR b / INR n)). lra.
    - pose proof (P _ K). pose proof (pow2_ge_0 (IZR (row_wave n i) / INR n)). lra. }
  assert (Run : forall steps, exists U V, modular_spectral_run g smooth None 0 0 rk4_scheme (T / INR steps) false steps (rfftn w) = Ok U /\ modular_spectral_run g smooth None 0 0 rk4_scheme (T / INR steps) true steps (rfftn w) = Ok V /\
     get U [i; b] = get (rfftn w) [i; b] /\ get V [i; b] = Cscal (filter_factor n i b ^ steps) (get (rfftn w) [i; b])).
  { intros steps. destruct (@filtered_runs_lem g n hx hy k2 0 0 (T / INR steps) smooth rk4_scheme (fun _ => 1%R) w steps Hg Hn He Sw H1 (fun p q _ _ => HA _ p q)) as (U & V & EU & EV & HH).
    exists U, V. split; [exact EU|]. split; [exact EV|]. destruct (HH i b Hi Hb) as [E1 E2]. rewrite E1, E2, pow1. split; [ceq | f_equal; ring]. }
  split.
  - intros steps. destruct (Run steps) as (U & V & EU & _ & E & _). eauto.
  - intros eps He0. destruct (@pow_lt_1_zero (filter_factor n i b)) with (y := eps) as (N & HN); [rewrite Rabs_right by lra; lra | exact He0 |]. exists N. intros steps Hs.
    destruct (Run steps) as (U & V & _ & EV & _ & E). exists V. split; [exact EV|]. rewrite E. specialize (HN steps Hs). rewrite Rabs_right in HN by (apply Rle_ge, pow_le; lra).
    assert (Cs : Cabs (Cscal (filter_factor n i b ^ steps) (get (rfftn w) [i; b])) = (filter_factor n i b ^ steps * Cabs (get (rfftn w) [i; b]))%R).
    { unfold Cabs. replace (Cn2 (Cscal (filter_factor n i b ^ steps) (get (rfftn w) [i; b]))) with ((filter_factor n i b ^ steps) ^ 2 * Cn2 (get (rfftn w) [i; b]))%R by (unfold Cn2; cbn; ring).
      rewrite sqrt_mult by (apply pow2_ge_0 || apply Cn2_pos). rewrite sqrt_pow2 by (apply pow_le; lra). reflexivity. }
    rewrite Cs. apply Rmult_le_compat_r; [apply sqrt_pos | lra].
Qed.
(* @ex *)
Lemma filter_has_no_step_limit_ex_lem : grid2 sq_grid 6 6 1 1 /\ Nat.Even 6 /\ shp cosine_field = [6%nat; 6%nat] /\ one_wave_length 6 6 (INR 6 * 1) (INR 6 * 1) (1 / 36) (rfftn cosine_field) /\ Cabs (get (rfftn cosine_field) [0; 1]) = 18%R.
Proof.
  split; [exact sq_grid_ok|]. split; [exists 3%nat; reflexivity|]. split; [reflexivity|]. split; [exact cosine_one_wave|]. rewrite cosine_spectrum by lia. cbn [Z.eqb andb Pos.eqb].
  unfold Cabs, Cn2. cbn [re im RtoC]. replace (18 * 18 + 0 * 0)%R with (18 ^ 2)%R by ring. apply sqrt_pow2. lra.
Qed.
