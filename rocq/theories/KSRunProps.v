(** * C67: runs of the Kuramoto-Sivashinsky and Burgers equations *)
From Verif Require Import Prelude NdArr LinAlg Cplx Grids_model FastDiag_model TimeStep_model FourierProofs FourierLine Spectral_model SpectralProps SpectralUtilProps SpectralPadProps FourierShift RealShift SpecFourier SpectralStep_model SpecStep SpecKS StepRel SpectralRunProps NS2DBase NS2DRunProps.
Set Implicit Arguments.
Local Open Scope Z_scope.

(** ** The explicit terms through grid values on M points *)
Definition gvals (M : nat) (a : R) (n : nat) (U : Z -> cplx) (j : Z) : R := (a * re (irfft1 M (padded n U) j))%R.
Lemma gvals_ext M a n U V j : (forall k, 0 <= k < Z.of_nat n -> U k = V k) -> gvals M a n U j = gvals M a n V j.
Proof. intros H. unfold gvals. do 2 f_equal. apply irfft1_ext. intros k Hk _. unfold padded. destruct (Z.ltb_spec k (Z.of_nat n)); [apply H; lia | reflexivity]. Qed.
Lemma gvals_mod M a n U j : (0 < M)%nat -> gvals M a n U (j mod Z.of_nat M) = gvals M a n U j.
Proof. intros H. unfold gvals. rewrite irfft1_mod by exact H. reflexivity. Qed.
Lemma gvals_shift M a n U r j : (0 < M)%nat -> gvals M a n (fun k => Cmul (phase M r k) (U k)) j = gvals M a n U (j + r).
Proof.
  intros HM. unfold gvals. rewrite <- irfft1_phase by exact HM. do 2 f_equal. apply irfft1_ext. intros k _ _. unfold padded. destruct (k <? Z.of_nat n); [reflexivity | ring].
Qed.
Lemma gvals_mirror M a n U j : gvals M a n (fun k => mirror (U k)) j = (- gvals M a n U (- j))%R.
Proof.
  unfold gvals. rewrite (@irfft1_ext M _ (fun k => mirror (padded n U k))).
  - rewrite irfft1_mirror. ring.
  - intros k _ _. unfold padded. destruct (k <? Z.of_nat n); [reflexivity | unfold mirror; ceq].
Qed.
Lemma gvals_scal M a n U c j : gvals M a n (fun k => Cscal c (U k)) j = (c * gvals M a n U j)%R.
Proof.
  unfold gvals, irfft1, ifft1. rewrite !re_csum. transitivity (a * (c * rsum M (fun i => re (Cmul (idftm M j i) (hermitian_ext M (padded n U) i)))))%R; [|ring]. f_equal. rewrite <- rsum_scal. apply rsum_ext. intros K _.
  replace (hermitian_ext M (padded n (fun k => Cscal c (U k))) K) with (Cscal c (hermitian_ext M (padded n U) K)); [cbn; ring|].
  assert (P : forall k, padded n (fun k => Cscal c (U k)) k = Cscal c (padded n U k)) by (intros k; unfold padded; destruct (k <? _); [reflexivity | ceq]).
  unfold hermitian_ext. destruct (K =? 0); [rewrite P; ceq|]. destruct (2 * K <? _); [rewrite P; reflexivity|]. destruct (2 * K =? _); rewrite P; ceq.
Qed.
(** The number of points on which products are formed, and the scale factors of the two transforms. *)
Definition prod_points (smooth : bool) (n : nat) : nat := if smooth then (2 * (3 * (n + 1) / 2 - 1))%nat else (2 * n)%nat.
Definition up_scale (smooth : bool) : R := if smooth then (3 / 2)%R else 1%R.
Definition down_scale (smooth : bool) : R := if smooth then (2 / 3)%R else 1%R.
Lemma points_pos smooth n : good_size smooth n -> (0 < prod_points smooth n)%nat.
Proof. intros [H Hs]. unfold prod_points. destruct smooth; [|lia]. destruct (Hs eq_refl) as [q ->]. rewrite odd_size; [lia | replace (2 * q + 1)%nat with (2 * q + 1)%nat by lia; apply odd_mode | lia]. Qed.
Lemma half_points n : (2 * n / 2 + 1 = n + 1)%nat.
Proof. rewrite Nat.mul_comm, Nat.div_mul; lia. Qed.
Definition to_grid (smooth : bool) := if smooth then padded_irfft else plain_irfft.
Definition from_grid (smooth : bool) := if smooth then truncated_rfft else plain_rfft.
Lemma to_grid_get smooth n U : good_size smooth n -> shp U = [(n + 1)%nat] ->
  exists u, to_grid smooth U = Ok u /\ shp u = [prod_points smooth n] /\ forall j, get u [j] = gvals (prod_points smooth n) (up_scale smooth) (n + 1) (fun k => get U [k]) j.
Proof.
  intros [H Hs] HU. unfold to_grid, prod_points, up_scale. destruct smooth.
  - destruct (@padded_irfft_spec U (n + 1) HU ltac:(lia)) as (u & E & S & G). exists u. split; [exact E|]. split; [exact S|]. exact G.
  - unfold plain_irfft. rewrite HU. cbn [nth]. replace (n + 1 <? 2)%nat with false by (symmetry; apply Nat.ltb_ge; lia). destruct (@irfftn1 U _ HU) as [S G]. replace (2 * (n + 1 - 1))%nat with (2 * n)%nat in * by lia.
    eexists. split; [reflexivity|]. split; [exact S|]. intros j. rewrite G. unfold gvals. rewrite Rmult_1_l. f_equal. apply irfft1_ext. intros k Hk Hk2. unfold padded. destruct (Z.ltb_spec k (Z.of_nat (n + 1))); [reflexivity | lia].
Qed.
Lemma from_grid_get smooth n u : good_size smooth n -> shp u = [prod_points smooth n] ->
  exists W, from_grid smooth u = Ok W /\ shp W = [(n + 1)%nat] /\ forall k, get W [k] = Cscal (down_scale smooth) (fft1 (prod_points smooth n) (fun j => RtoC (get u [j])) k).
Proof.
  intros Hg Hu. pose proof (points_pos Hg) as HM. destruct Hg as [H Hs]. unfold from_grid, down_scale. destruct smooth.
  - destruct (@truncated_rfft_spec u _ Hu HM) as (W & E & S & G). exists W. split; [exact E|]. split; [|exact G]. rewrite S. destruct (Hs eq_refl) as [q ->]. f_equal. unfold prod_points. rewrite odd_size; [|apply odd_mode | lia].
    replace (3 * (2 * q + 1 - 1) / 2)%nat with (3 * q)%nat by (apply Nat.div_unique with (r := 0%nat); lia). replace (2 * (3 * q + 1) / 3)%nat with (2 * q)%nat by (apply Nat.div_unique with (r := 2%nat); lia). lia.
  - unfold plain_rfft. rewrite Hu. cbn [nth]. unfold prod_points in *. replace (2 * n =? 0)%nat with false by (symmetry; apply Nat.eqb_neq; lia). destruct (@rfftn1 u _ Hu) as [S G]. eexists. split; [reflexivity|]. split; [rewrite S, half_points; reflexivity|]. intros k. rewrite G. ceq.
Qed.
Lemma ks_form g n h smooth U : good_size smooth n -> grid1 g (2 * n) h -> shp U = [(n + 1)%nat] ->
  exists W, ks_explicit_terms g smooth U = Ok W /\ shp W = shp U /\
    forall k, get W [k] = Cmul (Cscal (- (1 / 2)) (Cmul two_pi_i (RtoC (freq (2 * n) h k))))
                               (Cscal (down_scale smooth) (fft1 (prod_points smooth n) (fun j => RtoC (gvals (prod_points smooth n) (up_scale smooth) (n + 1) (fun k => get U [k]) j ^ 2)) k)).
Proof.
  intros Hs Hg HU. destruct (@to_grid_get smooth n U Hs HU) as (u & Eu & Su & Gu). destruct (@from_grid_get smooth n (amap (fun x => x ^ 2)%R u) Hs Su) as (W & EW & SW & GW).
  unfold ks_explicit_terms. rewrite (rfft_axes1 Hg). cbn [bind]. unfold to_grid in Eu. rewrite Eu. cbn [bind]. unfold from_grid in EW. rewrite EW. cbn [bind]. rewrite ew_ok by (cbn [shp]; rewrite SW, half_points; reflexivity).
  eexists. split; [reflexivity|]. split; [cbn [shp amap2]; rewrite HU, half_points; reflexivity|]. intros k. cbn [get amap2 nth]. rewrite GW. do 2 f_equal. apply fft1_ext. intros j _. cbn [get amap]. rewrite Gu. reflexivity.
Qed.
Definition ks_rate (n : nat) (h : R) (k : Z) : R := ((2 * PI * freq n h k) ^ 2 - (2 * PI * freq n h k) ^ 4)%R.
Lemma ks_linear_get g n h U : grid1 g (2 * n) h -> shp U = [(n + 1)%nat] ->
  (exists L, ks_implicit_terms g U = Ok L /\ shp L = shp U /\ forall i, get L [i] = Cscal (ks_rate (2 * n) h i) (get U [i])) /\
  (forall dt, exists x, ks_implicit_solve g U dt = Ok x /\ shp x = shp U /\ forall i, get x [i] = Cscal (/ (1 - dt * ks_rate (2 * n) h i)) (get U [i])).
Proof.
  intros Hg HU. unfold ks_implicit_solve, ks_implicit_terms, ks_linear_term, linear_solve. rewrite (rfft_axes1 Hg). cbn [bind].
  assert (EL : forall k, Csub (Copp (Cpow (Cmul two_pi_i (RtoC (freq (2 * n) h k))) 2)) (Cpow (Cmul two_pi_i (RtoC (freq (2 * n) h k))) 4) = RtoC (ks_rate (2 * n) h k)) by (intros k; unfold ks_rate; apply Ceq; cbn; ring).
  split; [|intros dt]; rewrite ew_ok by (cbn [shp amap]; rewrite HU, half_points; reflexivity); eexists; (split; [reflexivity|]); (split; [cbn [shp amap2 amap]; rewrite HU, half_points; reflexivity|]); intros i; cbn [get amap2 amap nth]; rewrite EL.
  - ceq.
  - rewrite <- Cdiv_real. f_equal. f_equal. ceq.
Qed.
(** ** Runs respect transformations of the modes that commute with the equation *)
Lemma ks_run_rel g n h smooth (T : Z -> cplx -> cplx) : good_size smooth n -> grid1 g (2 * n) h ->
  (forall k a b, T k (Cadd a b) = Cadd (T k a) (T k b)) -> (forall k c a, T k (Cscal c a) = Cscal c (T k a)) ->
  (forall U U' W W', shp U = [(n + 1)%nat] -> shp U' = [(n + 1)%nat] -> (forall k, 0 <= k <= Z.of_nat n -> get U' [k] = T k (get U [k])) ->
     ks_explicit_terms g smooth U = Ok W -> ks_explicit_terms g smooth U' = Ok W' -> forall k, 0 <= k <= Z.of_nat n -> get W' [k] = T k (get W [k])) ->
  forall k dt steps U U', shp U = [(n + 1)%nat] -> shp U' = [(n + 1)%nat] -> (forall k, 0 <= k <= Z.of_nat n -> get U' [k] = T k (get U [k])) ->
  res_rel (fun V V' => shp V = [(n + 1)%nat] /\ shp V' = [(n + 1)%nat] /\ forall k, 0 <= k <= Z.of_nat n -> get V' [k] = T k (get V [k]))
    (ks_run g smooth k dt steps U) (ks_run g smooth k dt steps U').
Proof.
  intros Hs Hg TA TS TF k dt steps U U' HU HU' HR. unfold ks_run. rewrite HU, HU'. set (sh := [(n + 1)%nat]).
  assert (T0 : forall k, T k C0 = C0) by (intros i; replace C0 with (Cscal 0 C0) by ceq; rewrite TS; ceq).
  set (Rl := fun u v : cvec => forall i, 0 <= i <= Z.of_nat n -> get (to_carr sh v) [i] = T i (get (to_carr sh u) [i])).
  assert (H0 : res_rel Rl (spectral_steps k (ks_F g sh smooth) (ks_G g sh) (ks_Ginv g sh) dt steps (of_carr U)) (spectral_steps k (ks_F g sh smooth) (ks_G g sh) (ks_Ginv g sh) dt steps (of_carr U'))).
  { apply steps_rel.
    - intros i _. change (get (to_carr sh vzero) [i]) with C0. rewrite T0. reflexivity.
    - intros u v u' v' H1 H2 i Hi. rewrite !to_carr_add, H1, H2, TA by exact Hi. reflexivity.
    - intros a u u' H1 i Hi. rewrite !to_carr_scal, H1, TS by exact Hi. reflexivity.
    - intros u v H1 i Hi. destruct (@ks_form g n h smooth (to_carr sh u) Hs Hg eq_refl) as (W & EW & _). destruct (@ks_form g n h smooth (to_carr sh v) Hs Hg eq_refl) as (W' & EW' & _).
      unfold ks_F. rewrite (@unwrapped_get sh (ks_explicit_terms g smooth) u W _ EW), (@unwrapped_get sh (ks_explicit_terms g smooth) v W' _ EW'). apply (TF (to_carr sh u) (to_carr sh v)); try assumption; reflexivity.
    - intros u v H1 i Hi. destruct (proj1 (@ks_linear_get g n h (to_carr sh u) Hg eq_refl)) as (N & EN & SN & GN). destruct (proj1 (@ks_linear_get g n h (to_carr sh v) Hg eq_refl)) as (N' & EN' & SN' & GN').
      unfold ks_G. rewrite (@unwrapped_get sh (ks_implicit_terms g) u N _ EN), (@unwrapped_get sh (ks_implicit_terms g) v N' _ EN'), GN, GN', H1, TS by exact Hi. reflexivity.
    - intros u v r H1 i Hi. destruct (proj2 (@ks_linear_get g n h (to_carr sh u) Hg eq_refl) r) as (N & EN & SN & GN). destruct (proj2 (@ks_linear_get g n h (to_carr sh v) Hg eq_refl) r) as (N' & EN' & SN' & GN').
      unfold ks_Ginv. rewrite (@unwrapped_get sh (fun a => ks_implicit_solve g a r) u N _ EN), (@unwrapped_get sh (fun a => ks_implicit_solve g a r) v N' _ EN'), GN, GN', H1, TS by exact Hi. reflexivity.
    - intros i Hi. unfold sh. rewrite <- HU at 2. rewrite <- HU' at 1. rewrite !to_of. apply HR. exact Hi. }
  destruct (spectral_steps k _ _ _ dt steps (of_carr U)) as [u|], (spectral_steps k _ _ _ dt steps (of_carr U')) as [v|]; cbn [res_rel bind] in H0 |- *; try exact H0.
  split; [reflexivity|]. split; [reflexivity|]. exact H0.
Qed.
(** A shift by s cells on the grid of N = 2 n points is a shift by r cells of the grid of products. *)
Lemma product_shift (smooth : bool) n s : good_size smooth n -> (smooth = true -> Z.Even s) -> exists r, forall K, phase (prod_points smooth n) r K = phase (2 * n) s K.
Proof.
  intros [Hn Hs] He. unfold prod_points. destruct smooth; [|exists s; reflexivity].
  destruct (Hs eq_refl) as [q ->]. destruct (He eq_refl) as [s' ->]. exists (3 * s'). intros K. rewrite odd_size; [|apply odd_mode|lia]. replace (3 * (2 * q + 1 - 1))%nat with (6 * q)%nat by lia. replace (2 * (2 * q))%nat with (4 * q)%nat by lia.
  unfold phase. f_equal. assert (INR q <> 0%R) by (apply not_0_INR; lia). rewrite !mult_IZR, !mult_INR. cbn [INR]. field. lra.
Qed.
Lemma ks_translate g n h smooth s : good_size smooth n -> grid1 g (2 * n) h -> (smooth = true -> Z.Even s) -> forall U U' W W', shp U = [(n + 1)%nat] -> shp U' = [(n + 1)%nat] -> (forall k, 0 <= k <= Z.of_nat n -> get U' [k] = Cmul (phase (2 * n) s k) (get U [k])) ->
     ks_explicit_terms g smooth U = Ok W -> ks_explicit_terms g smooth U' = Ok W' -> forall k, 0 <= k <= Z.of_nat n -> get W' [k] = Cmul (phase (2 * n) s k) (get W [k]).
Proof.
  intros Hs Hg He U U' W W' HU HU' HR EW EW' k Hk. destruct (@product_shift smooth n s Hs He) as [r Hr]. pose proof (points_pos Hs) as HM.
  destruct (@ks_form g n h smooth U Hs Hg HU) as (W1 & E1 & _ & G1). rewrite EW in E1. injection E1 as <-. destruct (@ks_form g n h smooth U' Hs Hg HU') as (W1 & E1 & _ & G1'). rewrite EW' in E1. injection E1 as <-.
  rewrite G1, G1'. set (M := prod_points smooth n) in *. set (a := up_scale smooth). set (v := gvals M a (n + 1) (fun k => get U [k])).
  rewrite (@fft1_ext M (fun j => RtoC (gvals M a (n + 1) (fun k => get U' [k]) j ^ 2)) (fun j => RtoC (v (j + r) ^ 2))).
  - rewrite (@fft1_shift M r (fun j => RtoC (v j ^ 2))) by (try exact HM; intros j; unfold v; rewrite gvals_mod by exact HM; reflexivity). rewrite Hr. set (ph := phase _ _ _). set (y := fft1 _ _ _). set (z := Cmul two_pi_i _). clearbody ph y z. ceq.
  - intros j _. unfold v. rewrite <- gvals_shift by exact HM. do 2 f_equal. apply gvals_ext. intros i Hi. rewrite HR by lia. rewrite Hr. reflexivity.
Qed.
Lemma ks_mirror g n h smooth : good_size smooth n -> grid1 g (2 * n) h -> forall U U' W W', shp U = [(n + 1)%nat] -> shp U' = [(n + 1)%nat] -> (forall k, 0 <= k <= Z.of_nat n -> get U' [k] = mirror (get U [k])) ->
     ks_explicit_terms g smooth U = Ok W -> ks_explicit_terms g smooth U' = Ok W' -> forall k, 0 <= k <= Z.of_nat n -> get W' [k] = mirror (get W [k]).
Proof.
  intros Hs Hg U U' W W' HU HU' HR EW EW' k Hk. pose proof (points_pos Hs) as HM.
  destruct (@ks_form g n h smooth U Hs Hg HU) as (W1 & E1 & _ & G1). rewrite EW in E1. injection E1 as <-. destruct (@ks_form g n h smooth U' Hs Hg HU') as (W1 & E1 & _ & G1'). rewrite EW' in E1. injection E1 as <-.
  rewrite G1, G1'. set (M := prod_points smooth n) in *. set (a := up_scale smooth). set (v := gvals M a (n + 1) (fun k => get U [k])).
  rewrite (@fft1_ext M (fun j => RtoC (gvals M a (n + 1) (fun k => get U' [k]) j ^ 2)) (fun j => RtoC (v (- j) ^ 2))).
  - rewrite (@fft1_flip M (fun j => v j ^ 2)%R) by (try exact HM; intros j; unfold v; rewrite gvals_mod by exact HM; reflexivity). set (y := fft1 _ _ _). clearbody y. unfold mirror. apply Ceq; cbn; ring.
  - intros j _. f_equal. rewrite (@gvals_ext M a (n + 1) (fun k => get U' [k]) (fun k => mirror (get U [k]))) by (intros i Hi; apply HR; lia). rewrite gvals_mirror. unfold v. ring.
Qed.
(** ** Real fields *)
Lemma field_moved n U U' s : (1 <= n)%nat -> shp U = [(n + 1)%nat] -> shp U' = [(n + 1)%nat] -> (forall k, 0 <= k <= Z.of_nat n -> get U' [k] = Cmul (phase (2 * n) s k) (get U [k])) ->
  forall j, get (irfftn U') [j] = get (irfftn U) [(j + s) mod Z.of_nat (2 * n)].
Proof.
  intros Hn HU HU' HR j. destruct (@irfftn1 U _ HU) as [_ G]. destruct (@irfftn1 U' _ HU') as [_ G']. replace (2 * (n + 1 - 1))%nat with (2 * n)%nat in * by lia. rewrite G, G', irfft1_mod by lia. rewrite <- irfft1_phase by lia. f_equal. apply irfft1_ext. intros k H1 H2. apply HR. lia.
Qed.
Lemma field_mirrored n U U' : (1 <= n)%nat -> shp U = [(n + 1)%nat] -> shp U' = [(n + 1)%nat] -> (forall k, 0 <= k <= Z.of_nat n -> get U' [k] = mirror (get U [k])) ->
  forall j, get (irfftn U') [j] = (- get (irfftn U) [(- j) mod Z.of_nat (2 * n)])%R.
Proof.
  intros Hn HU HU' HR j. destruct (@irfftn1 U _ HU) as [_ G]. destruct (@irfftn1 U' _ HU') as [_ G']. replace (2 * (n + 1 - 1))%nat with (2 * n)%nat in * by lia. rewrite G, G', irfft1_mod by lia. rewrite <- irfft1_mirror. f_equal. apply irfft1_ext. intros k H1 H2. apply HR. lia.
Qed.
Lemma spectrum_moved n u u' s : (1 <= n)%nat -> shp u = [(2 * n)%nat] -> shp u' = [(2 * n)%nat] -> (forall j, 0 <= j < Z.of_nat (2 * n) -> get u' [j] = get u [(j + s) mod Z.of_nat (2 * n)]) ->
  forall k, get (rfftn u') [k] = Cmul (phase (2 * n) s k) (get (rfftn u) [k]).
Proof.
  intros Hn HU HU' HR k. destruct (@rfftn1 u _ HU) as [_ G]. destruct (@rfftn1 u' _ HU') as [_ G']. rewrite G, G'. set (N := (2 * n)%nat) in *. assert (HN : (0 < N)%nat) by (unfold N; lia).
  rewrite (@fft1_ext N (fun j => RtoC (get u' [j])) (fun j => RtoC (get u [(j + s) mod Z.of_nat N]))) by (intros j Hj; rewrite HR by exact Hj; reflexivity).
  rewrite (@fft1_shift N s (fun j => RtoC (get u [j mod Z.of_nat N])) k HN) by (intros j; rewrite Z.mod_mod by lia; reflexivity). f_equal. apply fft1_ext. intros j Hj. rewrite Z.mod_small by exact Hj. reflexivity.
Qed.
Lemma spectrum_mirrored n u u' : (1 <= n)%nat -> shp u = [(2 * n)%nat] -> shp u' = [(2 * n)%nat] -> (forall j, 0 <= j < Z.of_nat (2 * n) -> get u' [j] = (- get u [(- j) mod Z.of_nat (2 * n)])%R) ->
  forall k, get (rfftn u') [k] = mirror (get (rfftn u) [k]).
Proof.
  intros Hn HU HU' HR k. destruct (@rfftn1 u _ HU) as [_ G]. destruct (@rfftn1 u' _ HU') as [_ G']. rewrite G, G'. set (N := (2 * n)%nat) in *. assert (HN : (0 < N)%nat) by (unfold N; lia).
  rewrite (@fft1_ext N (fun j => RtoC (get u' [j])) (fun j => RtoC (-1 * get u [(- j) mod Z.of_nat N]))) by (intros j Hj; rewrite HR by exact Hj; f_equal; ring).
  rewrite fft1_scal. rewrite (@fft1_flip N (fun j => get u [j mod Z.of_nat N]) k HN) by (intros j; rewrite Z.mod_mod by lia; reflexivity).
  rewrite (@fft1_ext N (fun j => RtoC (get u [j mod Z.of_nat N])) (fun j => RtoC (get u [j]))) by (intros j Hj; rewrite Z.mod_small by exact Hj; reflexivity). unfold mirror. ceq.
Qed.
(* @prop C67 Runs of the Kuramoto-Sivashinsky equation commute with translations and with the reflection u(x) -> -u(-x): for every grid with an even number N of points (a multiple of 4 with dealiasing), every scheme, step size and number of steps, and every initial field u: starting from rfft of the field translated by s cells (an even number with dealiasing), the run has the same outcome as from rfft(u): it fails with the same error, or its field is the field of the other run translated by s cells; likewise for the reflected field. *)
Lemma ks_symmetries_lem : forall (g : grid) (n : nat) (h : R) (smooth : bool) (k : spectral_scheme) (dt : R) (steps : nat) (u u' : arr R),
  good_size smooth n -> grid1 g (2 * n) h -> shp u = [(2 * n)%nat] -> shp u' = [(2 * n)%nat] ->
  (forall s, (smooth = true -> Z.Even s) -> (forall j, 0 <= j < Z.of_nat (2 * n) -> get u' [j] = get u [(j + s) mod Z.of_nat (2 * n)]) ->
    res_rel (fun V V' => shp (irfftn V) = shp u /\ shp (irfftn V') = shp u /\ forall j, get (irfftn V') [j] = get (irfftn V) [(j + s) mod Z.of_nat (2 * n)])
      (ks_run g smooth k dt steps (rfftn u)) (ks_run g smooth k dt steps (rfftn u'))) /\
  ((forall j, 0 <= j < Z.of_nat (2 * n) -> get u' [j] = (- get u [(- j) mod Z.of_nat (2 * n)])%R) ->
    res_rel (fun V V' => shp (irfftn V) = shp u /\ shp (irfftn V') = shp u /\ forall j, get (irfftn V') [j] = (- get (irfftn V) [(- j) mod Z.of_nat (2 * n)])%R)
      (ks_run g smooth k dt steps (rfftn u)) (ks_run g smooth k dt steps (rfftn u'))).
Proof.
  intros g n h smooth k dt steps u u' Hs Hg Su Su'. pose proof Hs as [Hn _]. assert (SU : shp (rfftn u) = [(n + 1)%nat]) by (rewrite (proj1 (@rfftn1 u _ Su)), half_points; reflexivity). assert (SU' : shp (rfftn u') = [(n + 1)%nat]) by (rewrite (proj1 (@rfftn1 u' _ Su')), half_points; reflexivity).
  assert (SI : forall V, shp V = [(n + 1)%nat] -> shp (irfftn V) = shp u) by (intros V HV; rewrite (proj1 (@irfftn1 V _ HV)), Su; f_equal; lia).
  split.
  - intros s He HR. pose proof (@ks_run_rel g n h smooth (fun i z => Cmul (phase (2 * n) s i) z) Hs Hg ltac:(intros; cbv beta; ring) ltac:(intros; cbv beta; ceq) (@ks_translate g n h smooth s Hs Hg He) k dt steps (rfftn u) (rfftn u') SU SU') as H.
    specialize (H (fun i _ => @spectrum_moved n u u' s Hn Su Su' HR i)). destruct (ks_run g smooth k dt steps (rfftn u)) as [V|], (ks_run g smooth k dt steps (rfftn u')) as [V'|]; cbn [res_rel] in *; try exact H.
    destruct H as (S1 & S2 & H). split; [apply SI; exact S1|]. split; [apply SI; exact S2|]. apply (@field_moved n V V' s Hn S1 S2 H).
  - intros HR. pose proof (@ks_run_rel g n h smooth (fun i z => mirror z) Hs Hg ltac:(intros; unfold mirror; cbv beta; ceq) ltac:(intros; unfold mirror; cbv beta; ceq) (@ks_mirror g n h smooth Hs Hg) k dt steps (rfftn u) (rfftn u') SU SU') as H.
    specialize (H (fun i _ => @spectrum_mirrored n u u' Hn Su Su' HR i)). destruct (ks_run g smooth k dt steps (rfftn u)) as [V|], (ks_run g smooth k dt steps (rfftn u')) as [V'|]; cbn [res_rel] in *; try exact H.
    destruct H as (S1 & S2 & H). split; [apply SI; exact S1|]. split; [apply SI; exact S2|]. apply (@field_mirrored n V V' Hn S1 S2 H).
Qed.
(* @ex *)
Lemma ks_symmetries_ex_lem : exists u u' u'' : arr R, good_size true 2 /\ good_size false 2 /\ grid1 ex_grid1 (2 * 2) (1/4) /\ shp u = [(2 * 2)%nat] /\ shp u' = [(2 * 2)%nat] /\ shp u'' = [(2 * 2)%nat] /\ Z.Even 2 /\
  (forall j, 0 <= j < Z.of_nat (2 * 2) -> get u' [j] = get u [(j + 2) mod Z.of_nat (2 * 2)]) /\
  (forall j, 0 <= j < Z.of_nat (2 * 2) -> get u'' [j] = (- get u [(- j) mod Z.of_nat (2 * 2)])%R) /\ get u' [0] <> get u [0].
Proof.
  exists (mkarr [4%nat] (fun ix => IZR (nth 0%nat ix 0 + 1))), (mkarr [4%nat] (fun ix => IZR ((nth 0%nat ix 0 + 2) mod 4 + 1))), (mkarr [4%nat] (fun ix => (- IZR ((- nth 0%nat ix 0) mod 4 + 1)%Z)%R)).
  split; [split; [lia | exists 1%nat; reflexivity]|]. split; [split; [lia | discriminate]|]. split; [repeat split; try lia; lra|]. repeat split; try (intros; reflexivity); [exists 1; reflexivity|]. intros H. cbn in H. lra.
Qed.
