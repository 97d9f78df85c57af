(** * C66: the nonlinear Schroedinger equation *)
From Verif Require Import Prelude NdArr LinAlg Cplx Grids_model FastDiag_model TimeStep_model FourierProofs FourierLine Spectral_model SpectralProps SpectralUtilProps SpectralPadProps FourierShift SpecFourier SpectralStep_model SpecStep StepRel SpecNLS NLSBase NS2DBase NS2DRunProps.
Set Implicit Arguments.
Local Open Scope Z_scope.

(** ** Derivatives of polynomials and sums at 0 *)
Lemma poly4_deriv (a b c d e : R) : derivable_pt_lim (fun t => a + b * t + c * t ^ 2 + d * t ^ 3 + e * t ^ 4)%R 0 b.
Proof.
  assert (E1 : b = (0 + b * 1 + c * (INR 2 * 0 ^ Nat.pred 2) + d * (INR 3 * 0 ^ Nat.pred 3) + e * (INR 4 * 0 ^ Nat.pred 4))%R) by (cbn; ring). apply (eq_ind _ (fun l => derivable_pt_lim (fun t => a + b * t + c * t ^ 2 + d * t ^ 3 + e * t ^ 4)%R 0 l)) with (2 := eq_sym E1).
  change (derivable_pt_lim ((((fct_cte a + mult_real_fct b id) + mult_real_fct c (fun t => t ^ 2)%R) + mult_real_fct d (fun t => t ^ 3)%R) + mult_real_fct e (fun t => t ^ 4)%R)%F 0 (0 + b * 1 + c * (INR 2 * 0 ^ Nat.pred 2) + d * (INR 3 * 0 ^ Nat.pred 3) + e * (INR 4 * 0 ^ Nat.pred 4))%R).
  repeat apply derivable_pt_lim_plus; try (apply derivable_pt_lim_scal; apply derivable_pt_lim_pow); [apply derivable_pt_lim_const | apply derivable_pt_lim_scal; apply derivable_pt_lim_id].
Qed.
Lemma deriv_ext f h x l : (forall t, f t = h t) -> derivable_pt_lim f x l -> derivable_pt_lim h x l.
Proof. intros E H. replace h with f by (apply functional_extensionality; exact E). exact H. Qed.
Lemma rsum_deriv n (f : Z -> R -> R) (d : Z -> R) : (forall i, 0 <= i < Z.of_nat n -> derivable_pt_lim (f i) 0 (d i)) -> derivable_pt_lim (fun t => rsum n (fun i => f i t)) 0 (rsum n d).
Proof.
  induction n as [|n IH]; intros H; cbn [rsum]; [apply derivable_pt_lim_const|].
  change (derivable_pt_lim ((fun t => rsum n (fun i => f i t)) + f (Z.of_nat n))%F 0 (rsum n d + d (Z.of_nat n))%R). apply derivable_pt_lim_plus; [apply IH; intros; apply H; lia | apply H; lia].
Qed.
Definition dot (a b : cplx) : R := (re a * re b + im a * im b)%R.
Lemma dot_re a b : dot a b = re (Cmul a (Cconj b)). Proof. unfold dot. cbn. ring. Qed.
Lemma Cn2_along a b t : Cn2 (Cadd a (Cscal t b)) = (Cn2 a + 2 * dot a b * t + Cn2 b * t ^ 2)%R.
Proof. unfold Cn2, dot. cbn. ring. Qed.
Lemma Cn2_deriv a b : derivable_pt_lim (fun t => Cn2 (Cadd a (Cscal t b))) 0 (2 * dot a b)%R.
Proof. eapply deriv_ext; [|apply (poly4_deriv (Cn2 a) (2 * dot a b)%R (Cn2 b) 0 0)]. intros t. cbv beta. rewrite Cn2_along. ring. Qed.
Lemma Cn2sq_deriv a b : derivable_pt_lim (fun t => Cn2 (Cadd a (Cscal t b)) ^ 2)%R 0 (4 * Cn2 a * dot a b)%R.
Proof.
  eapply deriv_ext; [|apply (poly4_deriv (Cn2 a ^ 2)%R (4 * Cn2 a * dot a b)%R (4 * dot a b ^ 2 + 2 * Cn2 a * Cn2 b)%R (4 * dot a b * Cn2 b)%R (Cn2 b ^ 2)%R)]. intros t. cbv beta. rewrite Cn2_along. ring.
Qed.

(** ** The inner product of the explicit terms with a spectrum *)
Section Emb.
Variables (n M : nat) (t : Z) (E : (Z -> cplx) -> Z -> cplx) (e : Z -> Z).
Hypothesis (HE : embedding n M t E e).
Lemma emb_conj X K : E (fun k => Cconj (X k)) K = Cconj (E X K).
Proof. apply (emb_map HE Cconj). ceq. Qed.
Lemma emb_cmul c X K : E (fun k => Cmul c (X k)) K = Cmul c (E X K).
Proof. apply (emb_map HE (Cmul c)). ceq. Qed.
Lemma emb_cscal c X K : E (fun k => Cscal c (X k)) K = Cscal c (E X K).
Proof. apply (emb_map HE (Cscal c)). ceq. Qed.
Lemma values_ext b U V j : (forall k, 0 <= k < Z.of_nat n -> U k = V k) -> nls_grid_values M b E U j = nls_grid_values M b E V j.
Proof. intros H. unfold nls_grid_values. f_equal. apply ifft1_ext. intros K HK. apply (emb_ext HE); assumption. Qed.
Lemma values_along b U V c j : nls_grid_values M b E (fun k => Cadd (U k) (Cscal c (V k))) j = Cadd (nls_grid_values M b E U j) (Cscal c (nls_grid_values M b E V j)).
Proof.
  unfold nls_grid_values. rewrite (@ifft1_ext M _ (fun K => Cadd (E U K) (Cscal c (E V K)))) by (intros K _; rewrite (emb_add HE), emb_cscal; reflexivity).
  unfold ifft1. rewrite (@csum_ext M _ (fun K => Cadd (Cmul (idftm M j K) (E U K)) (Cmul (RtoC c) (Cmul (idftm M j K) (E V K))))) by (intros; ceq).
  change (gsum C0 Cadd) with csum. rewrite csum_plus, csum_scal. ceq.
Qed.
Lemma cubic_inner f X : csum n (fun k => Cmul (fft1 M f (e k)) (Cconj (X k))) = Cscal (INR M) (csum M (fun j => Cmul (f j) (Cconj (ifft1 M (E X) j)))).
Proof.
  rewrite <- fft_inner by apply (emb_pos HE). transitivity (csum n (fun k => Cmul (Cconj (X k)) (fft1 M f (e k)))); [apply csum_ext; intros; ring|].
  rewrite (emb_sum HE (fun k => Cconj (X k)) (fft1 M f)). apply csum_ext. intros K _. rewrite emb_conj. ring.
Qed.
(** Rotations and translations. *)
Lemma values_moved b c s U j : nls_grid_values M b E (fun k => Cmul (moved_mode n c s k) (U k)) j = Cmul c (nls_grid_values M b E U (j + t * s)).
Proof.
  unfold nls_grid_values. rewrite <- ifft1_phase by apply (emb_pos HE).
  rewrite (@ifft1_ext M _ (fun K => Cmul c (Cmul (phase M (t * s) K) (E U K)))).
  - unfold ifft1. rewrite (@csum_ext M _ (fun K => Cmul c (Cmul (idftm M j K) (Cmul (phase M (t * s) K) (E U K))))) by (intros; ring). change (gsum C0 Cadd) with csum. rewrite csum_scal. ceq.
  - intros K HK. rewrite <- (emb_phase HE), <- emb_cmul. apply (emb_ext HE); [exact HK|]. intros k _. unfold moved_mode, phase. ring.
Qed.
End Emb.
Lemma cubic_rotate c psi : Cn2 c = 1%R -> forall j, cubic (fun j => Cmul c (psi j)) j = Cmul c (cubic psi j).
Proof.
  intros Hc j. unfold cubic. replace (Cn2 (Cmul c (psi j))) with (Cn2 (psi j)); [ceq|]. transitivity (Cn2 c * Cn2 (psi j))%R; [rewrite Hc; ring|]. unfold Cn2. cbn. ring.
Qed.
Lemma nls_linear_get g q h U : (1 <= q)%nat -> grid1 g (2 * q) h -> shp U = [(2 * q)%nat] ->
  (exists L, nls_implicit_terms g U = Ok L /\ shp L = shp U /\ forall i, get L [i] = Cmul (mkC 0 (wave2 (freq (2 * q) h (signed (2 * q) i)) 0 / 8)) (get U [i])) /\
  (forall dt, exists x, nls_implicit_solve g U dt = Ok x /\ shp x = shp U /\ forall i, get x [i] = Cmul (Cinv (Csub C1 (Cscal dt (mkC 0 (wave2 (freq (2 * q) h (signed (2 * q) i)) 0 / 8))))) (get U [i])).
Proof.
  intros Hq (Hs & Ht & Hn & Hh) HU. unfold nls_implicit_terms, nls_implicit_solve, nls_two_pi_i_k, fft_axes. rewrite Hs, Ht. cbn [combine map fst snd]. replace ((2 * q) mod 2)%nat with 0%nat by (rewrite Nat.mul_comm, Nat.mod_mul; lia). cbn [Nat.eqb bind].
  assert (Hq2 : forall i, Cpow (Cmul two_pi_i (RtoC (fftfreq (2 * q) h i))) 2 = RtoC (- wave2 (freq (2 * q) h (signed (2 * q) i)) 0)).
  { intros i. rewrite fftfreq_signed. unfold wave2. apply Ceq; cbn; ring. }
  split; [|intros dt]; rewrite ew_ok by (rewrite HU; reflexivity); eexists; (split; [reflexivity|]); (split; [cbn [shp amap2]; symmetry; exact HU|]); intros i; cbn [get amap2 nth]; rewrite Hq2.
  - apply Ceq; cbn; field.
  - unfold Cdiv. transitivity (Cmul (get U [i]) (Cinv (Csub C1 (Cscal dt (mkC 0 (wave2 (freq (2 * q) h (signed (2 * q) i)) 0 / 8)))))); [|ring]. do 3 f_equal. apply Ceq; cbn; field.
Qed.
(* @prop C66 The nonlinear Schroedinger right-hand side conserves mass and energy, with and without dealiasing: for every grid with an even number of points and every spectrum U, explicit_terms and implicit_terms succeed; moving from U in the direction of explicit_terms alone, of implicit_terms alone or of their sum does not change the mass (sum of |U_k|^2) to first order, and moving in the direction of their sum does not change the Hamiltonian, the sum over the grid of |psi|^4/4 - |psi_x|^2/8 (the field evaluated on the doubled grid when dealiased). *)
Lemma nls_conserves_lem : forall (g : grid) (q : nat) (h : R) (smooth : bool) (U : arr cplx),
  (1 <= q)%nat -> grid1 g (2 * q) h -> shp U = [(2 * q)%nat] ->
  exists N L, nls_explicit_terms g smooth U = Ok N /\ nls_implicit_terms g U = Ok L /\ shp N = shp U /\ shp L = shp U /\
    let rate := amap2 Cadd N L in
    derivable_pt_lim (fun t => nls_mass (2 * q) (along U N t)) 0%R 0%R /\
    derivable_pt_lim (fun t => nls_mass (2 * q) (along U L t)) 0%R 0%R /\
    derivable_pt_lim (fun t => nls_mass (2 * q) (along U rate t)) 0%R 0%R /\
    (forall t, is_ok (field_values smooth (along U rate t))) /\
    derivable_pt_lim (fun t => nls_energy (2 * q) (INR (2 * q) * h)%R smooth (along U rate t)) 0%R 0%R.
Proof.
  intros g q h smooth U Hq Hg HU. pose proof Hg as (_ & _ & Hn & Hh). destruct (@nls_form g q h smooth Hq Hg) as (M & t & E & e & HE & Et & HF).
  destruct (HF U HU) as (psi & N & Ep & Sp & Gp & EN & SN & GN). destruct (@nls_linear_get g q h U Hq Hg HU) as [(L & EL & SL & GL) _].
  exists N, L. split; [exact EN|]. split; [exact EL|]. split; [congruence|]. split; [exact SL|]. cbv zeta. set (n := (2 * q)%nat) in *. set (Z := amap2 Cadd N L).
  set (T := IZR t) in *. assert (HT : (0 < T)%R) by (unfold T; rewrite Et; destruct smooth; lra). assert (HnR : (0 < INR n)%R) by (apply lt_0_INR; exact Hn). assert (HMT : INR M = (T * INR n)%R) by (unfold T; rewrite INR_IZR_INZ, (emb_mult HE), mult_IZR, <- INR_IZR_INZ; reflexivity).
  set (psiv := nls_grid_values M T E (fun k => get U [k])) in *.
  (* inner products with the explicit terms *)
  assert (IP : forall X : arr cplx, csum n (fun k => Cmul (get N [k]) (Cconj (get X [k]))) = Cscal (- (INR n / 2 / T)) (csum M (fun j => Cmul (cubic psiv j) (Cconj (nls_grid_values M T E (fun k => get X [k]) j))))).
  { intros X. transitivity (Cmul (RtoC (- (/ 2 / T))) (csum n (fun k => Cmul (fft1 M (cubic psiv) (e k)) (Cconj (get X [k]))))).
    - rewrite <- csum_scal. apply csum_ext. intros k Hk. rewrite GN by exact Hk. ceq.
    - rewrite (cubic_inner HE). rewrite HMT. transitivity (Cscal (- (INR n / 2 / T)) (Cmul (RtoC T) (csum M (fun j => Cmul (cubic psiv j) (Cconj (ifft1 M (E (fun k => get X [k])) j)))))).
      + set (y := csum M _). apply Ceq; cbn; field; lra.
      + f_equal. rewrite <- csum_scal. apply csum_ext. intros j _. unfold nls_grid_values. ceq. }
  assert (MN : rsum n (fun k => 2 * dot (get U [k]) (get N [k]))%R = 0%R).
  { pose proof (IP U) as H. fold psiv in H. apply (f_equal re) in H. rewrite re_csum in H. cbn [re Cscal] in H. rewrite re_csum in H.
    rewrite (@rsum_ext M _ (fun _ => 0%R)) in H by (intros j _; unfold cubic, Cn2; cbn; ring). rewrite rsum_0 in H. transitivity (2 * rsum n (fun k => re (Cmul (get N [k]) (Cconj (get U [k])))))%R; [rewrite <- rsum_scal; apply rsum_ext; intros; unfold dot; cbn; ring | rewrite H; ring]. }
  assert (ML : forall k, dot (get U [k]) (get L [k]) = 0%R) by (intros k; rewrite GL; unfold dot; cbn; ring).
  assert (Mass : forall X : arr cplx, rsum n (fun k => 2 * dot (get U [k]) (get X [k]))%R = 0%R -> derivable_pt_lim (fun t => nls_mass n (along U X t)) 0%R 0%R).
  { intros X HX. apply (eq_ind _ (fun l => derivable_pt_lim (fun t => nls_mass n (along U X t)) 0%R l)) with (2 := HX). unfold nls_mass. apply (@rsum_deriv n (fun i t => Cn2 (get (along U X t) [i]))). intros i _. apply (Cn2_deriv (get U [i]) (get X [i])). }
  assert (HML : rsum n (fun k => 2 * dot (get U [k]) (get L [k]))%R = 0%R) by (rewrite (@rsum_ext n _ (fun _ => 0%R)) by (intros; rewrite ML; ring); apply rsum_0).
  split; [apply Mass; exact MN|]. split; [apply Mass; exact HML|]. split.
  { apply Mass. transitivity (rsum n (fun k => 2 * dot (get U [k]) (get N [k]))%R + rsum n (fun k => 2 * dot (get U [k]) (get L [k]))%R)%R; [|rewrite MN, HML; ring]. rewrite <- rsum_plus. apply rsum_ext. intros k _. unfold Z, dot. cbn. ring. }
  assert (FV : forall s, exists p, field_values smooth (along U Z s) = Ok p /\ shp p = [M] /\ forall j, get p [j] = Cadd (psiv j) (Cscal s (nls_grid_values M T E (fun k => get Z [k]) j))).
  { intros s. destruct (HF (along U Z s) HU) as (p & _ & E1 & S1 & G1 & _). exists p. split; [unfold nls_transform in E1; unfold field_values; destruct smooth; exact E1|]. split; [exact S1|]. intros j. rewrite G1. unfold psiv. rewrite <- (values_along HE). reflexivity. }
  split; [intros s; destruct (FV s) as (p & E1 & _); exists p; exact E1|].
  set (phi := nls_grid_values M T E (fun k => get Z [k])) in *. set (w := fun k => ((2 * PI * IZR (row_wave n k) / (INR n * h)) ^ 2)%R).
  apply (@deriv_ext (fun s => / 4 * rsum M (fun j => Cn2 (Cadd (psiv j) (Cscal s (phi j))) ^ 2) / T - / 8 * rsum n (fun k => w k * Cn2 (Cadd (get U [k]) (Cscal s (get Z [k])))) / INR n)%R).
  { intros s. unfold nls_energy. destruct (FV s) as (p & E1 & S1 & G1). rewrite E1, S1. cbn [nth]. f_equal. rewrite (@rsum_ext M (fun j => (Cn2 (get p [j]) ^ 2)%R) (fun j => (Cn2 (Cadd (psiv j) (Cscal s (phi j))) ^ 2)%R)) by (intros; rewrite G1; reflexivity). unfold T. rewrite Et. destruct smooth; reflexivity. }
  assert (D : (/ 4 * rsum M (fun j => 4 * Cn2 (psiv j) * dot (psiv j) (phi j)) / T - / 8 * rsum n (fun k => w k * (2 * dot (get U [k]) (get Z [k]))) / INR n = 0)%R).
  { assert (P1 : rsum M (fun j => Cn2 (psiv j) * dot (psiv j) (phi j))%R = (- (2 * T / INR n) * rsum n (fun k => im (Cmul (get N [k]) (Cconj (get Z [k])))))%R).
    { pose proof (IP Z) as H. fold phi in H. apply (f_equal im) in H. rewrite im_csum in H. cbn [im Cscal] in H. rewrite im_csum in H. rewrite H.
      rewrite (@rsum_ext M (fun i => im (Cmul (cubic psiv i) (Cconj (phi i)))) (fun j => Cn2 (psiv j) * dot (psiv j) (phi j))%R) by (intros; unfold cubic, dot; cbn; ring). field. lra. }
    assert (P2 : rsum n (fun k => w k * (2 * dot (get U [k]) (get Z [k])))%R = (16 * rsum n (fun k => im (Cmul (get L [k]) (Cconj (get Z [k])))))%R).
    { rewrite <- rsum_scal. apply rsum_ext. intros k _. rewrite GL. change (row_wave n k) with (signed n k) in *. unfold w. replace (wave2 (freq n h (signed n k)) 0) with ((2 * PI * IZR (row_wave n k) / (INR n * h)) ^ 2)%R by (unfold wave2, freq; change (row_wave n k) with (signed n k); unfold Rdiv; ring). unfold dot. cbn [im Cmul Cconj re]. field. lra. }
    rewrite (@rsum_ext M _ (fun j => 4 * (Cn2 (psiv j) * dot (psiv j) (phi j)))%R) by (intros; ring). rewrite rsum_scal, P1, P2.
    assert (P3 : (rsum n (fun k => im (Cmul (get N [k]) (Cconj (get Z [k])))) + rsum n (fun k => im (Cmul (get L [k]) (Cconj (get Z [k])))) = 0)%R).
    { rewrite <- rsum_plus. rewrite (@rsum_ext n _ (fun _ => 0%R)); [apply rsum_0|]. intros k _. unfold Z. cbn. ring. }
    set (s1 := rsum n (fun k => im (Cmul (get N [k]) _))) in *. set (s2 := rsum n (fun k => im (Cmul (get L [k]) _))) in *. replace s2 with (- s1)%R by lra. field. lra. }
  set (F := fun s : R => _). apply (eq_ind _ (fun l => derivable_pt_lim F 0%R l)) with (2 := D). unfold F; clear F.
  change (derivable_pt_lim ((fun s => / 4 * rsum M (fun j => Cn2 (Cadd (psiv j) (Cscal s (phi j))) ^ 2) / T)%R - (fun s => / 8 * rsum n (fun k => w k * Cn2 (Cadd (get U [k]) (Cscal s (get Z [k])))) / INR n)%R)%F 0%R (/ 4 * rsum M (fun j => 4 * Cn2 (psiv j) * dot (psiv j) (phi j)) / T - / 8 * rsum n (fun k => w k * (2 * dot (get U [k]) (get Z [k]))) / INR n)%R).
  apply derivable_pt_lim_minus.
  - replace (/ 4 * rsum M (fun j => 4 * Cn2 (psiv j) * dot (psiv j) (phi j)) / T)%R with (/ 4 / T * rsum M (fun j => 4 * Cn2 (psiv j) * dot (psiv j) (phi j)))%R by (unfold Rdiv; ring).
    apply (@deriv_ext (mult_real_fct (/ 4 / T) (fun s => rsum M (fun j => Cn2 (Cadd (psiv j) (Cscal s (phi j))) ^ 2)%R))); [intros s; unfold mult_real_fct, Rdiv; ring|]. apply derivable_pt_lim_scal. apply (@rsum_deriv M (fun j s => Cn2 (Cadd (psiv j) (Cscal s (phi j))) ^ 2)%R). intros j _. apply Cn2sq_deriv.
  - replace (/ 8 * rsum n (fun k => w k * (2 * dot (get U [k]) (get Z [k]))) / INR n)%R with (/ 8 / INR n * rsum n (fun k => w k * (2 * dot (get U [k]) (get Z [k]))))%R by (unfold Rdiv; ring).
    apply (@deriv_ext (mult_real_fct (/ 8 / INR n) (fun s => rsum n (fun k => w k * Cn2 (Cadd (get U [k]) (Cscal s (get Z [k]))))%R))); [intros s; unfold mult_real_fct, Rdiv; ring|]. apply derivable_pt_lim_scal. apply (@rsum_deriv n (fun k s => w k * Cn2 (Cadd (get U [k]) (Cscal s (get Z [k]))))%R). intros k _. apply derivable_pt_lim_scal. apply Cn2_deriv.
Qed.
(* @ex *)
Lemma nls_conserves_ex_lem : grid1 ex_grid1 (2 * 2) (1/4) /\ shp (afull [4%nat] C1) = [(2 * 2)%nat].
Proof. repeat split; try lia; lra. Qed.
