(** * C79: symmetries of the two-dimensional pseudo-spectral Navier-Stokes solver *)
From Verif Require Import Prelude NdArr LinAlg Cplx Grids_model Boundaries_model FD_model FastDiag_model TimeStep_model FourierProofs FourierLine FourierPlane Spectral_model SpectralProps SpectralUtilProps FourierShift RealShift SpecFourier SpectralStep_model SpecStep StepRel SpectralRunProps NS2DBase NS2DMoreProps NS2DForceProps NS2DRunProps SpecFlow.
Set Implicit Arguments.
Local Open Scope Z_scope.

Lemma even_cols m : Nat.Even m -> (2 * (m / 2 + 1 - 1) = m)%nat.
Proof. intros [k ->]. rewrite (Nat.mul_comm 2 k), Nat.div_mul by lia. lia. Qed.
Lemma irfft1_scal M c X j : re (irfft1 M (fun k => Cscal c (X k)) j) = (c * re (irfft1 M X j))%R.
Proof.
  unfold irfft1. rewrite (@ifft1_ext M _ (fun K => Cscal c (hermitian_ext M X K))); [rewrite ifft1_cscal; reflexivity|].
  intros K _. unfold hermitian_ext. destruct (K =? 0); [ceq|]. destruct (2 * K <? _); [reflexivity|]. destruct (2 * K =? _); ceq.
Qed.
Lemma irfftn_get U n m : shp U = [n; (m / 2 + 1)%nat] -> Nat.Even m -> shp (irfftn U) = [n; m] /\
  forall i j, get (irfftn U) [i; j] = re (irfft1 m (fun q => ifft1 n (fun p => get U [p; q]) i) j).
Proof. intros H He. destruct (@irfftn2_raw U n _ H) as [S G]. rewrite (even_cols He) in *. split; assumption. Qed.
Lemma irfftn_scal U U' n m c : shp U = [n; (m / 2 + 1)%nat] -> shp U' = [n; (m / 2 + 1)%nat] -> Nat.Even m ->
  (forall p q, 0 <= p < Z.of_nat n -> 0 <= q <= Z.of_nat (m / 2) -> get U' [p; q] = Cscal c (get U [p; q])) -> forall i j, get (irfftn U') [i; j] = (c * get (irfftn U) [i; j])%R.
Proof.
  intros HU HU' He HR i j. destruct (@irfftn_get U n m HU He) as [_ G]. destruct (@irfftn_get U' n m HU' He) as [_ G']. rewrite G, G', <- irfft1_scal. f_equal. apply irfft1_ext. intros q Hq Hq2.
  rewrite <- (@ifft1_cscal n c (fun p => get U [p; q]) i). apply ifft1_ext. intros p Hp. apply HR; [exact Hp | apply half_range; lia].
Qed.
Lemma fft2_scal n m c (w : Z -> Z -> R) p q : fft2 n m (fun i j => RtoC (c * w i j)) p q = Cscal c (fft2 n m (fun i j => RtoC (w i j)) p q).
Proof.
  unfold fft2. transitivity (fft1 n (fun i => Cmul (RtoC c) (fft1 m (fun j => RtoC (w i j)) q)) p).
  - apply fft1_ext. intros i _. rewrite fft1_scal. ceq.
  - unfold fft1 at 1. rewrite (@csum_ext n _ (fun k => Cmul (RtoC c) (Cmul (dftm n p k) (fft1 m (fun j => RtoC (w k j)) q)))) by (intros; ring). rewrite csum_scal. change (csum n (fun k => Cmul (dftm n p k) (fft1 m (fun j => RtoC (w k j)) q))) with (fft1 n (fun i => fft1 m (fun j => RtoC (w i j)) q) p). set (y := fft1 n _ p). clearbody y. ceq.
Qed.

(** ** A motion: what it does to grid values and to modes *)
Section Motion.
Variables (g : grid) (n m : nat) (hx hy : R).
Hypothesis (Hg : grid2 g n m hx hy) (He : Nat.Even m).
Variables (T : Z -> Z -> cplx -> cplx) (pi pj : Z -> Z) (e : R).
Hypothesis (Tadd : forall p q a b, T p q (Cadd a b) = Cadd (T p q a) (T p q b)) (Tscal : forall p q c a, T p q (Cscal c a) = Cscal c (T p q a)).
Hypothesis (Timag : forall p q r z, Cmul (mkC 0 r) (T p q z) = Cscal e (T p q (Cmul (mkC 0 r) z))) (Hee : (e * e = 1)%R).
Hypothesis (Tinv : forall U U', shp U = [n; (m / 2 + 1)%nat] -> shp U' = [n; (m / 2 + 1)%nat] ->
  (forall p q, 0 <= p < Z.of_nat n -> 0 <= q <= Z.of_nat (m / 2) -> get U' [p; q] = T p q (get U [p; q])) -> forall i j, get (irfftn U') [i; j] = get (irfftn U) [pi i; pj j]).
Hypothesis (Tfwd : forall u u', shp u = [n; m] -> shp u' = [n; m] ->
  (forall i j, 0 <= i < Z.of_nat n -> 0 <= j < Z.of_nat m -> get u' [i; j] = get u [pi i; pj j]) -> forall p q, get (rfftn u') [p; q] = T p q (get (rfftn u) [p; q])).
Definition mspec (U U' : arr cplx) : Prop := forall p q, 0 <= p < Z.of_nat n -> 0 <= q <= Z.of_nat (m / 2) -> get U' [p; q] = T p q (get U [p; q]).
Definition mcomp (u u' : arr R) : Prop := shp u = [n; m] /\ shp u' = [n; m] /\ forall i j, 0 <= i < Z.of_nat n -> 0 <= j < Z.of_nat m -> get u' [i; j] = (e * get u [pi i; pj j])%R.
Lemma Tinv_e U U' (mu : Z -> Z -> R) (Y Y' : arr cplx) : mspec U U' ->
  shp Y = [n; (m / 2 + 1)%nat] -> shp Y' = [n; (m / 2 + 1)%nat] ->
  (forall p q, 0 <= p < Z.of_nat n -> 0 <= q <= Z.of_nat (m / 2) -> get Y [p; q] = Cmul (mkC 0 (mu p q)) (get U [p; q])) ->
  (forall p q, 0 <= p < Z.of_nat n -> 0 <= q <= Z.of_nat (m / 2) -> get Y' [p; q] = Cmul (mkC 0 (mu p q)) (get U' [p; q])) -> mcomp (irfftn Y) (irfftn Y').
Proof.
  intros HR SY SY' GY GY'. split; [apply (@irfftn_get Y n m SY He)|]. split; [apply (@irfftn_get Y' n m SY' He)|]. intros i j _ _.
  set (Z0 := mkarr [n; (m / 2 + 1)%nat] (fun ix => Cscal e (get Y' ix))).
  assert (E1 : get (irfftn Z0) [i; j] = get (irfftn Y) [pi i; pj j]).
  { apply (Tinv Y Z0 SY eq_refl). intros p q Hp Hq. unfold Z0. cbn [get]. rewrite GY', GY, HR by assumption. rewrite Timag. set (z := T p q _). clearbody z. destruct z as [zr zi]. apply Ceq; cbn; [transitivity ((e * e) * zr)%R | transitivity ((e * e) * zi)%R]; try ring; rewrite Hee; ring. }
  rewrite <- E1. rewrite (@irfftn_scal Y' Z0 n m e SY' eq_refl He) by (intros; reflexivity). rewrite <- Rmult_assoc, Hee. ring.
Qed.
Lemma Tfwd_e u u' : mcomp u u' -> forall p q, get (rfftn u') [p; q] = Cscal e (T p q (get (rfftn u) [p; q])).
Proof.
  intros (S & S' & H) p q. set (z := mkarr [n; m] (fun ix => (e * get u' ix)%R)).
  assert (E : get (rfftn z) [p; q] = T p q (get (rfftn u) [p; q])).
  { apply (Tfwd u z S eq_refl). intros i j Hi Hj. unfold z. cbn [get]. rewrite H by assumption. rewrite <- Rmult_assoc, Hee. ring. }
  rewrite <- E. rewrite (proj2 (@rfftn2 z n m eq_refl)), (proj2 (@rfftn2 u' n m S')). unfold z. cbn [get]. rewrite fft2_scal.
  set (y := fft2 _ _ _ _ _). clearbody y. destruct y as [a b]. apply Ceq; cbn; [transitivity ((e * e) * a)%R | transitivity ((e * e) * b)%R]; try ring; rewrite Hee; ring.
Qed.
Lemma ns2d_explicit_moves smooth f W W' : forcing_moves n m mcomp f -> shp W = [n; (m / 2 + 1)%nat] -> shp W' = [n; (m / 2 + 1)%nat] -> mspec W W' ->
  exists N N', ns2d_explicit_terms g smooth f W = Ok N /\ ns2d_explicit_terms g smooth f W' = Ok N' /\ shp N = [n; (m / 2 + 1)%nat] /\ shp N' = [n; (m / 2 + 1)%nat] /\ mspec N N'.
Proof.
  intros Hf HW HW' HR. pose proof (rfft_mesh2 Hg) as Em.
  destruct (@velocity_symbols g n m hx hy W Hg HW) as (U & V & EV & SU & SV & GUV). destruct (@velocity_symbols g n m hx hy W' Hg HW') as (U' & V' & EV' & SU' & SV' & GUV').
  pose proof Hg as (Hs & _ & Hn & Hm & Hx & Hy). destruct (@brick_get g n m Hs Hn Hm) as (F & EF & SF & _).
  rewrite HW in SU, SV. rewrite HW' in SU', SV'.
  assert (IX : forall a b, uxs n m hx hy a b = mkC 0 (im (uxs n m hx hy a b))).
  { intros a b. unfold uxs, dys, sig, two_pi_i. destruct (_ && _); apply Ceq; cbn; ring. }
  assert (IY : forall a b, uys n m hx hy a b = mkC 0 (im (uys n m hx hy a b))).
  { intros a b. unfold uys, dxs, sig, two_pi_i. destruct (_ && _); apply Ceq; cbn; ring. }
  assert (MU : mcomp (irfftn U) (irfftn U')).
  { apply (@Tinv_e W W' (fun p q => im (uxs n m hx hy (signed n p) q))); try assumption; intros p q Hp Hq; rewrite <- IX; [apply GUV | apply GUV']; assumption. }
  assert (MV : mcomp (irfftn V) (irfftn V')).
  { apply (@Tinv_e W W' (fun p q => im (uys n m hx hy (signed n p) q))); try assumption; intros p q Hp Hq; rewrite <- IY; [apply GUV | apply GUV']; assumption. }
  unfold ns2d_explicit_terms. rewrite Em, EF, EV, EV'. cbn [bind fst snd].
  rewrite (@ew_ok _ _ _ _ (mesh_x n m hx) W), (@ew_ok _ _ _ _ (mesh_x n m hx) W') by (rewrite ?HW, ?HW'; reflexivity). cbn [bind].
  rewrite (@ew_ok _ _ _ _ (mesh_y n m hy) W), (@ew_ok _ _ _ _ (mesh_y n m hy) W') by (rewrite ?HW, ?HW'; reflexivity). cbn [bind].
  set (gx := amap2 _ (mesh_x n m hx) W). set (gy := amap2 _ (mesh_y n m hy) W). set (gx' := amap2 _ (mesh_x n m hx) W'). set (gy' := amap2 _ (mesh_y n m hy) W').
  assert (MX : mcomp (irfftn gx) (irfftn gx')).
  { apply (@Tinv_e W W' (fun p q => 2 * PI * freq n hx (signed n p))%R); try assumption; try reflexivity; intros p q Hp Hq; unfold gx, gx'; cbn [get amap2 mesh_x nth]; f_equal; unfold two_pi_i; ceq. }
  assert (MY : mcomp (irfftn gy) (irfftn gy')).
  { apply (@Tinv_e W W' (fun p q => 2 * PI * freq m hy q)%R); try assumption; try reflexivity; intros p q Hp Hq; unfold gy, gy'; cbn [get amap2 mesh_y nth]; f_equal; unfold two_pi_i; ceq. }
  destruct MU as (S1 & S1' & M1) eqn:EMU. destruct MV as (S2 & S2' & M2) eqn:EMV. destruct MX as (S3 & S3' & M3). destruct MY as (S4 & S4' & M4).
  rewrite (@ew_ok _ _ _ _ (irfftn gx)), (@ew_ok _ _ _ _ (irfftn gx')) by congruence. cbn [bind]. rewrite (@ew_ok _ _ _ _ (irfftn gy)), (@ew_ok _ _ _ _ (irfftn gy')) by congruence. cbn [bind].
  rewrite !ew_ok by (cbn; congruence). cbn [bind].
  match goal with |- context [rfftn (amap Ropp (amap2 Rplus (amap2 Rmult (irfftn gx) ?b) ?c))] => set (adv := amap Ropp (amap2 Rplus (amap2 Rmult (irfftn gx) b) c)) end.
  match goal with |- context [rfftn (amap Ropp (amap2 Rplus (amap2 Rmult (irfftn gx') ?b) ?c))] => set (adv' := amap Ropp (amap2 Rplus (amap2 Rmult (irfftn gx') b) c)) end.
  assert (Sa : shp adv = [n; m]) by (unfold adv; cbn; exact S3). assert (Sa' : shp adv' = [n; m]) by (unfold adv'; cbn; exact S3').
  assert (Ma : forall p q, get (rfftn adv') [p; q] = T p q (get (rfftn adv) [p; q])).
  { apply Tfwd; try assumption. intros i j Hi Hj. unfold adv, adv'. cbn [get amap amap2]. rewrite M1, M2, M3, M4 by assumption.
    set (a := get _ _). set (b := get _ _). set (c := get _ _). set (d := get _ _). clearbody a b c d. transitivity (- ((e * e) * (a * b) + (e * e) * (c * d)))%R; [ring|]. rewrite Hee. ring. }
  destruct (rfftn2 adv Sa) as [S5 _]. destruct (rfftn2 adv' Sa') as [S5' _].
  assert (HT : exists X X', match smooth with None => Ok (rfftn adv) | Some _ => ew (fun h f0 => Cscal f0 h) (rfftn adv) F end = Ok X /\ match smooth with None => Ok (rfftn adv') | Some _ => ew (fun h f0 => Cscal f0 h) (rfftn adv') F end = Ok X' /\ shp X = [n; (m / 2 + 1)%nat] /\ shp X' = [n; (m / 2 + 1)%nat] /\ mspec X X').
  { destruct smooth.
    - rewrite (@ew_ok _ _ _ _ (rfftn adv)), (@ew_ok _ _ _ _ (rfftn adv')) by congruence. do 2 eexists. split; [reflexivity|]. split; [reflexivity|]. split; [exact S5|]. split; [exact S5'|]. intros p q _ _. cbn [get amap2]. rewrite Tscal, Ma. reflexivity.
    - do 2 eexists. split; [reflexivity|]. split; [reflexivity|]. split; [exact S5|]. split; [exact S5'|]. intros p q _ _. apply Ma. }
  destruct HT as (X & X' & EX & EX' & SX & SX' & MX). rewrite EX, EX'. cbn [bind].
  destruct f as [f|]; [|exists X, X'; repeat (split; [assumption || reflexivity|]); exact MX].
  destruct (Hf (irfftn U) (irfftn V) (irfftn U') (irfftn V')) as (fx & fy & fx' & fy' & Ef & Ef' & Mx & My); [exact MU || (split; [|split]; assumption) | exact MV || (split; [|split]; assumption) |].
  rewrite Ef, Ef'. cbn [bind fst snd]. pose proof Mx as (Sfx & Sfx' & _). pose proof My as (Sfy & Sfy' & _).
  destruct (rfftn2 fx Sfx) as [Q1 _]. destruct (rfftn2 fy Sfy) as [Q2 _]. destruct (rfftn2 fx' Sfx') as [Q1' _]. destruct (rfftn2 fy' Sfy') as [Q2' _].
  unfold spectral_curl_2d. repeat (match goal with |- context [ew ?h ?a ?b] => rewrite (@ew_ok _ _ _ h a b) by (cbn [shp mesh_x mesh_y amap amap2]; congruence) end; cbn [bind]).
  do 2 eexists. split; [reflexivity|]. split; [reflexivity|]. split; [exact SX|]. split; [exact SX'|].
  intros p q Hp Hq. cbn [get amap amap2 mesh_x mesh_y nth]. rewrite (MX p q Hp Hq), (@Tfwd_e fx fx' Mx p q), (@Tfwd_e fy fy' My p q). rewrite Tadd. f_equal.
  assert (Tsub : forall a b, T p q (Csub a b) = Csub (T p q a) (T p q b)). { intros a b. replace (Csub a b) with (Cadd a (Cscal (-1) b)) by ceq. rewrite Tadd, Tscal. ceq. }
  assert (K : forall r z, T p q (Cmul (mkC 0 (2 * PI * r)) z) = Cmul (mkC 0 (2 * PI * r)) (Cscal e (T p q z))).
  { intros r z. replace (Cmul (mkC 0 (2 * PI * r)) (Cscal e (T p q z))) with (Cscal e (Cmul (mkC 0 (2 * PI * r)) (T p q z))) by ceq. rewrite Timag.
    set (y := T p q (Cmul _ _)). clearbody y. destruct y as [a b]. apply Ceq; cbn; rewrite <- Rmult_assoc, Hee; ring. }
  set (A := get (rfftn fx) [p; q]). set (B := get (rfftn fy) [p; q]).
  assert (Q : forall x y r r', Cmul two_pi_i (Csub (Cmul x (RtoC r)) (Cmul y (RtoC r'))) = Csub (Cmul (mkC 0 (2 * PI * r)) x) (Cmul (mkC 0 (2 * PI * r')) y)) by (intros; unfold two_pi_i; ceq).
  rewrite !Q, Tsub, !K. reflexivity.
Qed.
Lemma ns2d_run_moves smooth f nu drag k dt steps W W' : forcing_moves n m mcomp f -> shp W = [n; (m / 2 + 1)%nat] -> shp W' = [n; (m / 2 + 1)%nat] -> mspec W W' ->
  res_rel (fun V V' => shp V = [n; (m / 2 + 1)%nat] /\ shp V' = [n; (m / 2 + 1)%nat] /\ mspec V V') (ns2d_run g smooth f nu drag k dt steps W) (ns2d_run g smooth f nu drag k dt steps W').
Proof.
  intros Hf HW HW' HR. unfold ns2d_run. rewrite HW, HW'. set (sh := [n; (m / 2 + 1)%nat]).
  set (Rl := fun u v : cvec => mspec (to_carr sh u) (to_carr sh v)).
  assert (T0 : forall p q, T p q C0 = C0) by (intros p q; replace C0 with (Cscal 0 C0) by ceq; rewrite Tscal; ceq).
  assert (H0 : res_rel Rl (spectral_steps k (ns2d_F g sh smooth f) (ns2d_G g sh nu drag) (ns2d_Ginv g sh nu drag) dt steps (of_carr W)) (spectral_steps k (ns2d_F g sh smooth f) (ns2d_G g sh nu drag) (ns2d_Ginv g sh nu drag) dt steps (of_carr W'))).
  { apply steps_rel.
    - intros p q _ _. change (get (to_carr sh vzero) [p; q]) with C0. rewrite T0. reflexivity.
    - intros u v u' v' H1 H2 p q Hp Hq. rewrite !to_carr_add, (H1 p q Hp Hq), (H2 p q Hp Hq), Tadd. reflexivity.
    - intros a u u' H1 p q Hp Hq. rewrite !to_carr_scal, (H1 p q Hp Hq), Tscal. reflexivity.
    - intros u v H1 p q Hp Hq. destruct (@ns2d_explicit_moves smooth f (to_carr sh u) (to_carr sh v) Hf eq_refl eq_refl H1) as (N & N' & EN & EN' & _ & _ & MN).
      unfold ns2d_F. rewrite (@unwrapped_get sh (ns2d_explicit_terms g smooth f) u N _ EN), (@unwrapped_get sh (ns2d_explicit_terms g smooth f) v N' _ EN'). apply MN; assumption.
    - intros u v H1 p q Hp Hq. destruct (proj1 (@ns2d_linear_get g n m hx hy nu drag (to_carr sh u) Hg eq_refl)) as (N & EN & SN & GN). destruct (proj1 (@ns2d_linear_get g n m hx hy nu drag (to_carr sh v) Hg eq_refl)) as (N' & EN' & SN' & GN').
      unfold ns2d_G. rewrite (@unwrapped_get sh (ns2d_implicit_terms g nu drag) u N _ EN), (@unwrapped_get sh (ns2d_implicit_terms g nu drag) v N' _ EN'), GN, GN', (H1 p q Hp Hq), Tscal. reflexivity.
    - intros u v h H1 p q Hp Hq. destruct (proj2 (@ns2d_linear_get g n m hx hy nu drag (to_carr sh u) Hg eq_refl) h) as (N & EN & SN & GN). destruct (proj2 (@ns2d_linear_get g n m hx hy nu drag (to_carr sh v) Hg eq_refl) h) as (N' & EN' & SN' & GN').
      unfold ns2d_Ginv. rewrite (@unwrapped_get sh (fun a => ns2d_implicit_solve g nu drag a h) u N _ EN), (@unwrapped_get sh (fun a => ns2d_implicit_solve g nu drag a h) v N' _ EN'), GN, GN', (H1 p q Hp Hq), Tscal. reflexivity.
    - intros p q Hp Hq. unfold sh. rewrite <- HW at 2. rewrite <- HW' at 1. rewrite !to_of. apply HR; assumption. }
  destruct (spectral_steps k _ _ _ dt steps (of_carr W)) as [u|], (spectral_steps k _ _ _ dt steps (of_carr W')) as [v|]; cbn [res_rel bind] in H0 |- *; try exact H0.
  split; [reflexivity|]. split; [reflexivity|]. exact H0.
Qed.
Lemma ns2d_field_moves smooth f nu drag k dt steps w w' : forcing_moves n m mcomp f -> shp w = [n; m] -> shp w' = [n; m] -> (forall i j, 0 <= i < Z.of_nat n -> 0 <= j < Z.of_nat m -> get w' [i; j] = get w [pi i; pj j]) ->
  res_rel (fun V V' => shp (irfftn V) = [n; m] /\ shp (irfftn V') = [n; m] /\ forall i j, get (irfftn V') [i; j] = get (irfftn V) [pi i; pj j]) (ns2d_run g smooth f nu drag k dt steps (rfftn w)) (ns2d_run g smooth f nu drag k dt steps (rfftn w')).
Proof.
  intros Hf Sw Sw' HR. destruct (rfftn2 w Sw) as [S1 _]. destruct (rfftn2 w' Sw') as [S1' _].
  pose proof (@ns2d_run_moves smooth f nu drag k dt steps (rfftn w) (rfftn w') Hf S1 S1' (fun p q _ _ => Tfwd w w' Sw Sw' HR p q)) as H.
  destruct (ns2d_run g smooth f nu drag k dt steps (rfftn w)) as [V|], (ns2d_run g smooth f nu drag k dt steps (rfftn w')) as [V'|]; cbn [res_rel] in *; try exact H.
  destruct H as (SV & SV' & MV). split; [apply (@irfftn_get V n m SV He)|]. split; [apply (@irfftn_get V' n m SV' He)|]. apply Tinv; assumption.
Qed.
End Motion.

(** ** Translations *)
Definition shiftT (n m : nat) (s r p q : Z) (z : cplx) : cplx := Cmul (phase n s p) (Cmul (phase m r q) z).
Lemma shiftT_inv n m s r : (0 < n)%nat -> (0 < m)%nat -> Nat.Even m -> forall U U', shp U = [n; (m / 2 + 1)%nat] -> shp U' = [n; (m / 2 + 1)%nat] ->
  (forall p q, 0 <= p < Z.of_nat n -> 0 <= q <= Z.of_nat (m / 2) -> get U' [p; q] = shiftT n m s r p q (get U [p; q])) -> forall i j, get (irfftn U') [i; j] = get (irfftn U) [(i + s) mod Z.of_nat n; (j + r) mod Z.of_nat m].
Proof.
  intros Hn Hm He U U' HU HU' HR i j. destruct (@irfftn_get U n m HU He) as [_ G]. destruct (@irfftn_get U' n m HU' He) as [_ G']. rewrite G, G', irfft1_mod by exact Hm. rewrite <- irfft1_phase by exact Hm. f_equal. apply irfft1_ext. intros q Hq Hq2.
  rewrite ifft1_mod by exact Hn. rewrite <- ifft1_phase by exact Hn. transitivity (ifft1 n (fun p => Cmul (phase m r q) (Cmul (phase n s p) (get U [p; q]))) i).
  - apply ifft1_ext. intros p Hp. rewrite HR by (try exact Hp; apply half_range; lia). unfold shiftT. ring.
  - unfold ifft1. rewrite <- csum_scal. apply csum_ext. intros p _. ring.
Qed.
Lemma shiftT_fwd n m s r : (0 < n)%nat -> (0 < m)%nat -> forall u u', shp u = [n; m] -> shp u' = [n; m] ->
  (forall i j, 0 <= i < Z.of_nat n -> 0 <= j < Z.of_nat m -> get u' [i; j] = get u [(i + s) mod Z.of_nat n; (j + r) mod Z.of_nat m]) -> forall p q, get (rfftn u') [p; q] = shiftT n m s r p q (get (rfftn u) [p; q]).
Proof.
  intros Hn Hm u u' Su Su' HR p q. rewrite (proj2 (@rfftn2 u n m Su)), (proj2 (@rfftn2 u' n m Su')). unfold shiftT, fft2.
  transitivity (fft1 n (fun i => (fun i => Cmul (phase m r q) (fft1 m (fun j => RtoC (get u [i mod Z.of_nat n; j])) q)) (i + s)) p).
  - apply fft1_ext. intros i Hi. cbv beta. rewrite (@fft1_ext m (fun j => RtoC (get u' [i; j])) (fun j => (fun j => RtoC (get u [(i + s) mod Z.of_nat n; j mod Z.of_nat m])) (j + r))) by (intros j Hj; rewrite HR by assumption; reflexivity).
    rewrite (@fft1_shift m r (fun j => RtoC (get u [(i + s) mod Z.of_nat n; j mod Z.of_nat m])) q Hm) by (intros j; rewrite Z.mod_mod by lia; reflexivity). f_equal. apply fft1_ext. intros j Hj. rewrite (Z.mod_small j) by exact Hj. reflexivity.
  - rewrite (@fft1_shift n s (fun i => Cmul (phase m r q) (fft1 m (fun j => RtoC (get u [i mod Z.of_nat n; j])) q)) p Hn) by (intros i; rewrite Z.mod_mod by lia; reflexivity). f_equal.
    unfold fft1 at 1. rewrite (@csum_ext n _ (fun i => Cmul (phase m r q) (Cmul (dftm n p i) (fft1 m (fun j => RtoC (get u [i; j])) q)))); [apply csum_scal|]. intros i Hi. rewrite Z.mod_small by exact Hi. ring.
Qed.
Lemma mcomp_one n m (pi pj : Z -> Z) u u' : mcomp n m pi pj 1 u u' <-> shp u = [n; m] /\ shp u' = [n; m] /\ forall i j, 0 <= i < Z.of_nat n -> 0 <= j < Z.of_nat m -> get u' [i; j] = get u [pi i; pj j].
Proof. unfold mcomp. split; intros (A & B & C); (split; [exact A|]); (split; [exact B|]); intros i j Hi Hj; rewrite C by assumption; ring. Qed.
Lemma moves_ext n m (P Q : arr R -> arr R -> Prop) f : (forall u u', P u u' <-> Q u u') -> forcing_moves n m P f -> forcing_moves n m Q f.
Proof.
  intros H. destruct f as [f|]; [|exact (fun x => x)]. intros Hf vx vy vx' vy' Hx Hy. destruct (Hf vx vy vx' vy' (proj2 (H _ _) Hx) (proj2 (H _ _) Hy)) as (fx & fy & fx' & fy' & E & E' & A & B).
  exists fx, fy, fx', fy'. split; [exact E|]. split; [exact E'|]. split; apply H; assumption.
Qed.
(* @prop C79 Translations. On every two-dimensional grid with an even number of columns, for every viscosity, drag, smooth flag, step size, number of steps and time stepping scheme of the spectral package, and every forcing that commutes with translations by (s, r) cells (or none): a run of NavierStokes2D started from the vorticity field w translated by (s, r) cells around the periodic box has the same outcome as the run started from w: the same error, or the vorticity field of the other run translated by (s, r) cells. No band limit is assumed. *)
Lemma ns2d_runs_commute_with_translations_lem : forall (g : grid) (n m : nat) (hx hy nu drag dt : R) (smooth : option bool) (forcing : option (arr R -> arr R -> result (arr R * arr R))) (k : spectral_scheme) (steps : nat) (s r : Z) (w w' : arr R),
  grid2 g n m hx hy -> Nat.Even m -> forcing_moves n m (translated n m s r) forcing -> translated n m s r w w' ->
  res_rel (fun V V' => translated n m s r (irfftn V) (irfftn V'))
    (ns2d_run g smooth forcing nu drag k dt steps (rfftn w)) (ns2d_run g smooth forcing nu drag k dt steps (rfftn w')).
Proof.
  intros g n m hx hy nu drag dt smooth f k steps s r w w' Hg He Hf (Sw & Sw' & HR). pose proof Hg as (_ & _ & Hn & Hm & _ & _).
  pose proof (@ns2d_field_moves g n m hx hy Hg He (shiftT n m s r) (fun i => (i + s) mod Z.of_nat n) (fun j => (j + r) mod Z.of_nat m) 1) as H.
  assert (H1 : forall p q a b, shiftT n m s r p q (Cadd a b) = Cadd (shiftT n m s r p q a) (shiftT n m s r p q b)) by (intros; unfold shiftT; ring).
  assert (H2 : forall p q c a, shiftT n m s r p q (Cscal c a) = Cscal c (shiftT n m s r p q a)) by (intros; unfold shiftT; ceq).
  assert (H3 : forall p q x z, Cmul (mkC 0 x) (shiftT n m s r p q z) = Cscal 1 (shiftT n m s r p q (Cmul (mkC 0 x) z))) by (intros; unfold shiftT; ceq).
  specialize (H H1 H2 H3 ltac:(ring) (@shiftT_inv n m s r Hn Hm He) (@shiftT_fwd n m s r Hn Hm) smooth f nu drag k dt steps w w').
  assert (Hf' : forcing_moves n m (mcomp n m (fun i => (i + s) mod Z.of_nat n) (fun j => (j + r) mod Z.of_nat m) 1) f) by (revert Hf; apply moves_ext; intros u u'; rewrite mcomp_one; reflexivity).
  specialize (H Hf' Sw Sw' HR). destruct (ns2d_run g smooth f nu drag k dt steps (rfftn w)) as [V|], (ns2d_run g smooth f nu drag k dt steps (rfftn w')) as [V'|]; cbn [res_rel] in *; try exact H.
  destruct H as (A & B & C). split; [exact A|]. split; [exact B|]. intros i j _ _. apply C.
Qed.

(** ** Half turns *)
Lemma ifft1_conj_flip n X i : ifft1 n (fun p => Cconj (X p)) i = Cconj (ifft1 n X (- i)).
Proof. unfold ifft1. rewrite Cconj_sum. apply csum_ext. intros p _. rewrite Cconj_mul, idftm_flip, Cconj_invol. reflexivity. Qed.
Lemma irfft1_conj m X j : re (irfft1 m (fun q => Cconj (X q)) j) = re (irfft1 m X (- j)).
Proof.
  rewrite (@irfft1_ext m _ (fun q => Cscal (-1) (mirror (X q)))) by (intros; unfold mirror; ceq). rewrite (@irfft1_scal m (-1) (fun q => mirror (X q))), irfft1_mirror. ring.
Qed.
Lemma conj_inv n m : (0 < n)%nat -> (0 < m)%nat -> Nat.Even m -> forall U U', shp U = [n; (m / 2 + 1)%nat] -> shp U' = [n; (m / 2 + 1)%nat] ->
  (forall p q, 0 <= p < Z.of_nat n -> 0 <= q <= Z.of_nat (m / 2) -> get U' [p; q] = Cconj (get U [p; q])) -> forall i j, get (irfftn U') [i; j] = get (irfftn U) [(- i) mod Z.of_nat n; (- j) mod Z.of_nat m].
Proof.
  intros Hn Hm He U U' HU HU' HR i j. destruct (@irfftn_get U n m HU He) as [_ G]. destruct (@irfftn_get U' n m HU' He) as [_ G']. rewrite G, G', irfft1_mod by exact Hm. rewrite <- irfft1_conj. f_equal. apply irfft1_ext. intros q Hq Hq2.
  rewrite ifft1_mod by exact Hn. rewrite <- ifft1_conj_flip. apply ifft1_ext. intros p Hp. apply HR; [exact Hp | apply half_range; lia].
Qed.
Lemma fft1_conj_flip M (f : Z -> cplx) K : (0 < M)%nat -> (forall j, f (j mod Z.of_nat M) = f j) -> fft1 M (fun j => Cconj (f (- j))) K = Cconj (fft1 M f K).
Proof.
  intros HM Hf. unfold fft1. rewrite Cconj_sum. rewrite <- (@csum_reflect M 0 (fun j => Cconj (Cmul (dftm M K j) (f j))) HM). apply csum_ext. intros j _.
  change (0 - j) with (- j). rewrite Hf, dftm_mod_r, dftm_flip by exact HM. rewrite Cconj_mul, Cconj_invol. reflexivity.
Qed.
Lemma conj_fwd n m : (0 < n)%nat -> (0 < m)%nat -> forall u u', shp u = [n; m] -> shp u' = [n; m] ->
  (forall i j, 0 <= i < Z.of_nat n -> 0 <= j < Z.of_nat m -> get u' [i; j] = get u [(- i) mod Z.of_nat n; (- j) mod Z.of_nat m]) -> forall p q, get (rfftn u') [p; q] = Cconj (get (rfftn u) [p; q]).
Proof.
  intros Hn Hm u u' Su Su' HR p q. rewrite (proj2 (@rfftn2 u n m Su)), (proj2 (@rfftn2 u' n m Su')). unfold fft2.
  transitivity (fft1 n (fun i => Cconj ((fun i => fft1 m (fun j => RtoC (get u [i mod Z.of_nat n; j])) q) (- i))) p).
  - apply fft1_ext. intros i Hi. cbv beta. rewrite (@fft1_ext m (fun j => RtoC (get u' [i; j])) (fun j => RtoC ((fun j => get u [(- i) mod Z.of_nat n; j mod Z.of_nat m]) (- j)))) by (intros j Hj; rewrite HR by assumption; reflexivity).
    rewrite (@fft1_flip m (fun j => get u [(- i) mod Z.of_nat n; j mod Z.of_nat m]) q Hm) by (intros j; rewrite Z.mod_mod by lia; reflexivity). f_equal. apply fft1_ext. intros j Hj. rewrite (Z.mod_small j) by exact Hj. reflexivity.
  - rewrite (@fft1_conj_flip n (fun i => fft1 m (fun j => RtoC (get u [i mod Z.of_nat n; j])) q) p Hn) by (intros i; rewrite Z.mod_mod by lia; reflexivity). f_equal. apply fft1_ext. intros i Hi. rewrite Z.mod_small by exact Hi. reflexivity.
Qed.
(* @prop C79 Half turns. Under the same conditions, for every forcing whose vector field turns along (or none): a run of NavierStokes2D started from the vorticity field rotated by 180 degrees has the same outcome as the run started from the original one: the same error, or the vorticity field of the other run rotated by 180 degrees. *)
Lemma ns2d_runs_commute_with_half_turns_lem : forall (g : grid) (n m : nat) (hx hy nu drag dt : R) (smooth : option bool) (forcing : option (arr R -> arr R -> result (arr R * arr R))) (k : spectral_scheme) (steps : nat) (w w' : arr R),
  grid2 g n m hx hy -> Nat.Even m -> forcing_moves n m (half_turn_component n m) forcing -> half_turn n m w w' ->
  res_rel (fun V V' => half_turn n m (irfftn V) (irfftn V'))
    (ns2d_run g smooth forcing nu drag k dt steps (rfftn w)) (ns2d_run g smooth forcing nu drag k dt steps (rfftn w')).
Proof.
  intros g n m hx hy nu drag dt smooth f k steps w w' Hg He Hf (Sw & Sw' & HR). pose proof Hg as (_ & _ & Hn & Hm & _ & _).
  pose proof (@ns2d_field_moves g n m hx hy Hg He (fun _ _ z => Cconj z) (fun i => (- i) mod Z.of_nat n) (fun j => (- j) mod Z.of_nat m) (-1)) as H.
  specialize (H ltac:(intros; ceq) ltac:(intros; ceq) ltac:(intros; ceq) ltac:(ring) (@conj_inv n m Hn Hm He) (@conj_fwd n m Hn Hm) smooth f nu drag k dt steps w w').
  assert (Hf' : forcing_moves n m (mcomp n m (fun i => (- i) mod Z.of_nat n) (fun j => (- j) mod Z.of_nat m) (-1)) f).
  { revert Hf. apply moves_ext. intros u u'. unfold mcomp, half_turn_component. split; intros (A & B & C); (split; [exact A|]); (split; [exact B|]); intros i j Hi Hj; rewrite C by assumption; ring. }
  specialize (H Hf' Sw Sw' HR). destruct (ns2d_run g smooth f nu drag k dt steps (rfftn w)) as [V|], (ns2d_run g smooth f nu drag k dt steps (rfftn w')) as [V'|]; cbn [res_rel] in *; try exact H.
  destruct H as (A & B & C). split; [exact A|]. split; [exact B|]. intros i j _ _. apply C.
Qed.
(** ** Examples: a bump of vorticity on a 6 x 6 grid, with a linear drag as forcing *)
Definition spot (a b : Z) : arr R := mkarr [6%nat; 6%nat] (fun ix => if (nth 0%nat ix 0 =? a) && (nth 1%nat ix 0 =? b) then 1%R else 0%R).
Definition drag_forcing (c : R) (vx vy : arr R) : result (arr R * arr R) := Ok (amap (fun x => - c * x)%R vx, amap (fun x => - c * x)%R vy).
(* @ex *)
Lemma ns2d_runs_commute_with_translations_ex_lem : grid2 sq_grid 6 6 1 1 /\ Nat.Even 6 /\ forcing_moves 6 6 (translated 6 6 1 5) None /\ forcing_moves 6 6 (translated 6 6 1 5) (Some (drag_forcing 2)) /\ translated 6 6 1 5 (spot 2 1) (spot 1 2).
Proof.
  split; [apply sq_grid_ok|]. split; [exists 3%nat; reflexivity|]. split; [exact I|]. split.
  - intros vx vy vx' vy' (A & B & C) (A' & B' & C'). do 4 eexists. split; [reflexivity|]. split; [reflexivity|]. split; (split; [assumption|]); (split; [assumption|]); intros i j Hi Hj; cbn [get amap]; [rewrite C by assumption | rewrite C' by assumption]; reflexivity.
  - split; [reflexivity|]. split; [reflexivity|]. intros i j Hi Hj. unfold spot. cbn [get nth]. change (Z.of_nat 6) with 6 in *.
    assert (E1 : ((i + 1) mod 6 =? 2) = (i =? 1)) by (destruct (Z.eqb_spec i 1) as [->|N]; [reflexivity|]; apply Z.eqb_neq; Z.to_euclidean_division_equations; lia).
    assert (E2 : ((j + 5) mod 6 =? 1) = (j =? 2)) by (destruct (Z.eqb_spec j 2) as [->|N]; [reflexivity|]; apply Z.eqb_neq; Z.to_euclidean_division_equations; lia). rewrite E1, E2. reflexivity.
Qed.
(* @ex *)
Lemma ns2d_runs_commute_with_half_turns_ex_lem : grid2 sq_grid 6 6 1 1 /\ Nat.Even 6 /\ forcing_moves 6 6 (half_turn_component 6 6) None /\ forcing_moves 6 6 (half_turn_component 6 6) (Some (drag_forcing 2)) /\ half_turn 6 6 (spot 2 1) (spot 4 5).
Proof.
  split; [apply sq_grid_ok|]. split; [exists 3%nat; reflexivity|]. split; [exact I|]. split.
  - intros vx vy vx' vy' (A & B & C) (A' & B' & C'). do 4 eexists. split; [reflexivity|]. split; [reflexivity|]. split; (split; [assumption|]); (split; [assumption|]); intros i j Hi Hj; cbn [get amap]; [rewrite C by assumption | rewrite C' by assumption]; ring.
  - split; [reflexivity|]. split; [reflexivity|]. intros i j Hi Hj. unfold spot. cbn [get nth]. change (Z.of_nat 6) with 6 in *.
    assert (E1 : ((- i) mod 6 =? 2) = (i =? 4)) by (destruct (Z.eqb_spec i 4) as [->|N]; [reflexivity|]; apply Z.eqb_neq; Z.to_euclidean_division_equations; lia).
    assert (E2 : ((- j) mod 6 =? 1) = (j =? 5)) by (destruct (Z.eqb_spec j 5) as [->|N]; [reflexivity|]; apply Z.eqb_neq; Z.to_euclidean_division_equations; lia). rewrite E1, E2. reflexivity.
Qed.
