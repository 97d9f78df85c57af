(** * C65: time-discrete Navier-Stokes runs *)
From Verif Require Import Prelude NdArr LinAlg Cplx Grids_model FastDiag_model TimeStep_model TimeStepProps FourierProofs FourierLine Spectral_model SpectralProps SpectralUtilProps FourierPlane SpecFourier NS2DBase NS2DProps SpectralStep_model SpecStep StepRel NS2DConserve NS2DMoreProps NS2DWaveProps SpectralRunProps.
Set Implicit Arguments.
Local Open Scope Z_scope.

Lemma frac_le1 a d : (0 < d)%R -> (- d <= a <= d)%R -> (Rabs (a / d) <= 1)%R.
Proof.
  intros Hd [H1 H2]. unfold Rdiv. rewrite Rabs_mult, (Rabs_pos_eq (/ d)) by (left; apply Rinv_0_lt_compat; exact Hd).
  apply Rmult_le_reg_r with d; [exact Hd|]. rewrite Rmult_assoc, Rinv_l by lra. rewrite Rmult_1_r, Rmult_1_l. apply Rabs_le. lra.
Qed.
Lemma cn_le1 mu lam : (0 <= mu)%R -> (lam <= 0)%R -> (Rabs (cn_factor mu lam) <= 1)%R.
Proof. intros Hm Hl. assert (mu * lam <= 0)%R by nra. apply frac_le1; lra. Qed.
(* @prop C65 Unconditional stability of the implicit parts: for a damped mode (lam <= 0) and any time step dt >= 0, however large, the amplification factor of backward_forward_euler, crank_nicolson_rk2, low_storage_runge_kutta_crank_nicolson (for non-decreasing alphas, e.g. crank_nicolson_rk3 and crank_nicolson_rk4) and imex_rk_sil3 exists and is at most one in modulus. *)
Lemma damped_modes_never_grow_lem : forall (dt lam : R) (k : spectral_scheme), (0 <= dt)%R -> (lam <= 0)%R ->
  (k = BackwardForwardEuler \/ k = CrankNicolsonRK2 \/ k = Imex sil3_tableau \/
   exists al be ga, k = LowStorage al be ga /\ length al = S (length be) /\ length ga = length be /\ forall j, (j < length be)%nat -> (nth j al 0 <= nth (S j) al 0)%R) ->
  exists a, amplification k dt lam = Ok a /\ (Rabs a <= 1)%R.
Proof.
  intros dt lam k Hd Hl Hk. destruct (amplification_factors_lem dt lam) as (A1 & A2 & A3 & A4 & _). assert (Hz : (dt * lam <= 0)%R) by nra.
  destruct Hk as [-> | [-> | [-> | (al & be & ga & -> & La & Lg & Hmon)]]].
  - eexists. split; [exact A1|]. apply frac_le1; lra.
  - eexists. split; [apply A2; nra|]. apply cn_le1; lra.
  - eexists. split; [apply A4; lra|]. set (z := (dt * lam)%R) in *. clearbody z. clear -Hz. assert (0 < (1 - z / 3) * (1 - z / 4))%R by nra. apply frac_le1; [assumption|]. split; nra.
  - eexists. split; [apply A3; assumption|]. revert Hmon. generalize (length be). induction n as [|n IH]; intros Hmon; cbn [rprod]; [rewrite Rabs_R1; lra|].
    rewrite Rabs_mult. rewrite <- (Rmult_1_r 1). apply Rmult_le_compat; try apply Rabs_pos; [apply IH; intros; apply Hmon; lia|]. apply cn_le1; [|exact Hl]. pose proof (Hmon n ltac:(lia)). nra.
Qed.
(* @ex *)
Lemma damped_modes_never_grow_ex_lem : (0 <= 100)%R /\ (-5 <= 0)%R /\ exists al be ga : list R, length al = S (length be) /\ length ga = length be /\ length be = 3%nat /\ forall j, (j < length be)%nat -> (nth j al 0 <= nth (S j) al 0)%R.
Proof.
  split; [lra|]. split; [lra|]. exists [0; 1 / 3; 3 / 4; 1]%R, [0; - (5 / 9); - (153 / 128)]%R, [1 / 3; 15 / 16; 8 / 15]%R. repeat split. intros [|[|[|j]]] Hj; cbn in *; try lra; lia.
Qed.

(** ** Navier-Stokes: the linear part *)
Lemma Cdiv_real x z : Cmul (Cdiv C1 (RtoC x)) z = Cscal (/ x) z.
Proof.
  destruct (Req_dec x 0) as [->|Hx].
  - unfold Cdiv, Cinv, Cn2. rewrite Rinv_0. apply Ceq; cbn; unfold Rdiv; ring.
  - unfold Cdiv, Cinv, Cn2. apply Ceq; cbn; field; exact Hx.
Qed.
Lemma ns2d_linear_get g n m hx hy nu drag W : grid2 g n m hx hy -> shp W = [n; (m / 2 + 1)%nat] ->
  (exists N, ns2d_implicit_terms g nu drag W = Ok N /\ shp N = shp W /\ forall i b, get N [i; b] = Cscal (mode_rate n m (INR n * hx) (INR m * hy) nu drag i b) (get W [i; b])) /\
  (forall h, exists N, ns2d_implicit_solve g nu drag W h = Ok N /\ shp N = shp W /\ forall i b, get N [i; b] = Cscal (/ (1 - h * mode_rate n m (INR n * hx) (INR m * hy) nu drag i b)) (get W [i; b])).
Proof.
  intros Hg Hw. pose proof (rfft_mesh2 Hg) as Em. unfold ns2d_implicit_terms, ns2d_implicit_solve, ns2d_linear_term, linear_solve. rewrite Em. cbn [bind].
  assert (EL : forall i b, Csub (Cscal nu (Cmul (Cpow two_pi_i 2) (RtoC (freq n hx (signed n i) ^ 2 + freq m hy b ^ 2)))) (RtoC drag) = RtoC (mode_rate n m (INR n * hx) (INR m * hy) nu drag i b)).
  { intros i b. unfold mode_rate. change (row_wave n i) with (signed n i). fold (freq n hx (signed n i)) (freq m hy b). apply Ceq; cbn; ring. }
  split.
  - rewrite ew_ok by (rewrite Hw; reflexivity). eexists. split; [reflexivity|]. split; [cbn; symmetry; exact Hw|]. intros i b. cbn [get amap2 mesh_x mesh_y nth]. rewrite EL. ceq.
  - intros h. rewrite ew_ok by (rewrite Hw; reflexivity). eexists. split; [reflexivity|]. split; [cbn; symmetry; exact Hw|]. intros i b. cbn [get amap2 mesh_x mesh_y nth]. rewrite EL.
    rewrite <- Cdiv_real. f_equal. f_equal. ceq.
Qed.
(** Unwrapping. *)
Lemma to_of W ix : get (to_carr (shp W) (of_carr W)) ix = get W ix.
Proof. apply Ceq; reflexivity. Qed.
Lemma unwrapped_ok s f u N : f (to_carr s u) = Ok N -> forall c ix, unwrapped s f u (c, ix) = if c then im (get N ix) else re (get N ix).
Proof. intros E c ix. unfold unwrapped. rewrite E. reflexivity. Qed.
Lemma unwrapped_get s f u N ix : f (to_carr s u) = Ok N -> get (to_carr s (unwrapped s f u)) ix = get N ix.
Proof. intros E. unfold unwrapped. rewrite E. apply Ceq; reflexivity. Qed.
Lemma to_carr_add s u v ix : get (to_carr s (vadd u v)) ix = Cadd (get (to_carr s u) ix) (get (to_carr s v) ix). Proof. reflexivity. Qed.
Lemma to_carr_scal s c u ix : get (to_carr s (vscal c u)) ix = Cscal c (get (to_carr s u) ix). Proof. reflexivity. Qed.

(* @prop C65 Runs of the unforced NavierStokes2D equation stay inside the 2/3 band, and the mean vorticity does not feel the nonlinearity: on every grid with n >= 3 rows and an even number of columns, from every initial vorticity inside the band, for every spectral scheme, dt, viscosity, drag and number of steps, the run has the same outcome as the scalar linear problem d(mean)/dt = -drag * mean for the mean mode: it fails with the same error or succeeds with that mean mode and a spectrum inside the band. Without drag the mean vorticity never changes. *)
Lemma ns2d_runs_mean_lem : forall (g : grid) (n m : nat) (hx hy nu drag dt : R) (smooth : bool) (k : spectral_scheme) (steps : nat) (W : arr cplx),
  grid2 g n m hx hy -> (3 <= n)%nat -> Nat.Even m -> shp W = [n; (m / 2 + 1)%nat] -> band_limited n m W ->
  res_rel (fun V y => shp V = shp W /\ band_limited n m V /\ get V [0; 0] = mkC (y false) (y true))
    (ns2d_run g (Some smooth) None nu drag k dt steps W)
    (linear_run (fun _ : bool => (- drag)%R) k dt steps (fun c => if c then im (get W [0; 0]) else re (get W [0; 0]))) /\
  (drag = 0%R -> forall V, ns2d_run g (Some smooth) None nu drag k dt steps W = Ok V -> get V [0; 0] = get W [0; 0]).
Proof.
  intros g n m hx hy nu drag dt smooth k steps W Hg Hn3 He Hw HB. pose proof Hg as (_ & _ & Hn & Hm & _ & _).
  set (s := shp W). set (Rl := fun (u : cvec) (y : vec bool) => band_limited n m (to_carr s u) /\ forall c, u (c, [0; 0]) = y c).
  assert (Hrate : mode_rate n m (INR n * hx) (INR m * hy) nu drag 0 0 = (- drag)%R).
  { unfold mode_rate, row_wave. replace (2 * 0 <? Z.of_nat n) with true by (symmetry; apply Z.ltb_lt; lia). unfold Rdiv. ring. }
  assert (H0 : res_rel Rl (spectral_steps k (ns2d_F g s (Some smooth) None) (ns2d_G g s nu drag) (ns2d_Ginv g s nu drag) dt steps (of_carr W))
     (linear_run (fun _ : bool => (- drag)%R) k dt steps (fun c => if c then im (get W [0; 0]) else re (get W [0; 0])))).
  { unfold linear_run. apply steps_rel.
    - split; [intros i b _ _ _; reflexivity | reflexivity].
    - intros u v u' v' [B1 E1] [B2 E2]. split; [|intros c; cbv [vadd]; rewrite E1, E2; reflexivity]. intros i b Hi Hb K. rewrite to_carr_add, (B1 i b Hi Hb K), (B2 i b Hi Hb K). ceq.
    - intros c u u' [B1 E1]. split; [|intros c0; cbv [vscal]; rewrite E1; reflexivity]. intros i b Hi Hb K. rewrite to_carr_scal, (B1 i b Hi Hb K). ceq.
    - intros u y [B1 _]. destruct (proj1 (@ns2d_mean_vorticity_lem g n m hx hy smooth (to_carr s u) Hg Hn3 He Hw B1)) as (N & EN & SN & BN & N0).
      split; [intros i b Hi Hb K; unfold ns2d_F; rewrite (@unwrapped_get s (ns2d_explicit_terms g (Some smooth) None) u N _ EN); apply BN; assumption|]. intros c. unfold ns2d_F. rewrite (@unwrapped_ok s (ns2d_explicit_terms g (Some smooth) None) u N EN), N0. destruct c; reflexivity.
    - intros u y [B1 E1]. destruct (proj1 (@ns2d_linear_get g n m hx hy nu drag (to_carr s u) Hg Hw)) as (N & EN & SN & GN).
      split; [intros i b Hi Hb K; unfold ns2d_G; rewrite (@unwrapped_get s (ns2d_implicit_terms g nu drag) u N _ EN), GN, (B1 i b Hi Hb K); ceq|]. intros c. unfold ns2d_G. rewrite (@unwrapped_ok s (ns2d_implicit_terms g nu drag) u N EN), GN, Hrate, <- E1. destruct c; cbn; ring.
    - intros u y h [B1 E1]. destruct (proj2 (@ns2d_linear_get g n m hx hy nu drag (to_carr s u) Hg Hw) h) as (N & EN & SN & GN).
      split; [intros i b Hi Hb K; unfold ns2d_Ginv; rewrite (@unwrapped_get _ (fun a => ns2d_implicit_solve g nu drag a h) _ _ _ EN), GN, (B1 i b Hi Hb K); ceq|]. intros c. unfold ns2d_Ginv. rewrite (@unwrapped_ok _ (fun a => ns2d_implicit_solve g nu drag a h) _ _ EN), GN, Hrate, <- E1. destruct c; cbn; unfold Rdiv; ring.
    - split; [intros i b Hi Hb K; unfold s; rewrite to_of; apply HB; assumption | intros []; reflexivity]. }
  split.
  - unfold ns2d_run. fold s. destruct (spectral_steps k (ns2d_F g s (Some smooth) None) (ns2d_G g s nu drag) (ns2d_Ginv g s nu drag) dt steps (of_carr W)), (linear_run _ k dt steps _); cbn in H0 |- *; try exact H0.
    destruct H0 as [B1 E1]. split; [reflexivity|]. split; [exact B1|]. apply Ceq; cbn; apply E1.
  - intros -> V EV. unfold ns2d_run in EV. fold s in EV. destruct (spectral_steps k (ns2d_F g s (Some smooth) None) (ns2d_G g s nu 0) (ns2d_Ginv g s nu 0) dt steps (of_carr W)) as [v|]; [|discriminate]. cbn [bind] in EV. injection EV as <-.
    destruct (linear_run _ k dt steps _) as [y|] eqn:Ey; [|contradiction]. cbn in H0. destruct H0 as [_ E1].
    assert (Hy : forall c, y c = if c then im (get W [0; 0]) else re (get W [0; 0])).
    { intros c. destruct steps as [|steps]; [injection Ey as <-; reflexivity|]. pose proof (@linear_run_powers_lem bool (fun _ => (- 0)%R) k dt steps (fun c => if c then im (get W [0; 0]) else re (get W [0; 0])) c) as P. rewrite Ey in P.
      destruct (amplification k dt (- 0)) as [a|] eqn:Ea; [|contradiction]. cbn in P. destruct (amplification_factors_lem dt (-0)) as (_ & _ & _ & _ & A5). rewrite (A5 ltac:(ring) k a Ea) in P. rewrite P. rewrite pow1. ring. }
    apply Ceq; cbn; rewrite E1, Hy; reflexivity.
Qed.
(* @ex *)
Lemma ns2d_runs_mean_ex_lem : grid2 sq_grid 6 6 1 1 /\ Nat.Even 6 /\ shp kept_wave = [6%nat; (6 / 2 + 1)%nat] /\ band_limited 6 6 kept_wave.
Proof.
  split; [apply sq_grid_ok|]. split; [exists 3%nat; reflexivity|]. split; [reflexivity|]. intros i b Hi Hb K. unfold kept_wave. cbn [get nth]. destruct (Z.eqb_spec i 5) as [->|]; [destruct (Z.eqb_spec b 1) as [->|]|]; cbn [andb]; try reflexivity.
  exfalso. apply K. unfold kept_rows, kept_columns, row_wave. cbn. lia.
Qed.
(* @prop C65 Flows with a single wave length decay exactly: on every grid with at least two columns, if all wave vectors present in the initial vorticity (apart from the mean) have the same length, then for every spectral scheme, dt, viscosity, drag, smooth flag and number of steps, the unforced NavierStokes2D run has the same outcome as the decoupled linear problem in which every stored mode decays at its own rate -(viscosity |2 pi k|^2 + drag): after n steps every mode has been multiplied by the n-th power of the scheme's amplification factor, as computed by linear_run_powers and amplification_factors, with no interaction between modes. *)
Lemma single_wave_length_runs_lem : forall (g : grid) (n m : nat) (hx hy k2 nu drag dt : R) (smooth : option bool) (k : spectral_scheme) (steps : nat) (W : arr cplx),
  grid2 g n m hx hy -> (2 <= m)%nat -> shp W = [n; (m / 2 + 1)%nat] -> one_wave_length n m (INR n * hx) (INR m * hy) k2 W ->
  res_rel (fun V y => shp V = shp W /\ one_wave_length n m (INR n * hx) (INR m * hy) k2 V /\
                      forall i b, 0 <= i < Z.of_nat n -> 0 <= b <= Z.of_nat (m / 2) -> get V [i; b] = mkC (y (false, (i, b))) (y (true, (i, b))))
    (ns2d_run g smooth None nu drag k dt steps W)
    (linear_run (fun x : bool * (Z * Z) => mode_rate n m (INR n * hx) (INR m * hy) nu drag (fst (snd x)) (snd (snd x))) k dt steps
                (fun x => let z := get W [fst (snd x); snd (snd x)] in if fst x then im z else re z)).
Proof.
  intros g n m hx hy k2 nu drag dt smooth k steps W Hg Hm2 Hw H1.
  set (s := shp W). set (Rl := fun (u : cvec) (y : vec (bool * (Z * Z))) => one_wave_length n m (INR n * hx) (INR m * hy) k2 (to_carr s u) /\
    forall i b, 0 <= i < Z.of_nat n -> 0 <= b <= Z.of_nat (m / 2) -> forall c, u (c, [i; b]) = y (c, (i, b))).
  assert (SC : forall (u : cvec) c, one_wave_length n m (INR n * hx) (INR m * hy) k2 (to_carr s u) -> forall (N : arr cplx), (forall i b, 0 <= i < Z.of_nat n -> 0 <= b <= Z.of_nat (m / 2) -> get N [i; b] = Cscal (c i b) (get (to_carr s u) [i; b])) -> one_wave_length n m (INR n * hx) (INR m * hy) k2 N).
  { intros u c O1 N GN i b Hi Hb Hib. destruct (O1 i b Hi Hb Hib) as [E|E]; [left; rewrite GN, E by assumption; ceq | right; exact E]. }
  match goal with |- res_rel _ _ ?l => assert (H0 : res_rel Rl (spectral_steps k (ns2d_F g s smooth None) (ns2d_G g s nu drag) (ns2d_Ginv g s nu drag) dt steps (of_carr W)) l) end.
  { unfold linear_run. apply steps_rel.
    - split; [intros i b _ _ _; left; reflexivity | reflexivity].
    - intros u v u' v' [B1 E1] [B2 E2]. split; [|intros i b Hi Hb c; cbv [vadd]; rewrite E1, E2 by assumption; reflexivity]. intros i b Hi Hb K. rewrite to_carr_add. destruct (B1 i b Hi Hb K) as [Z1|Z1]; [|right; exact Z1]. destruct (B2 i b Hi Hb K) as [Z2|Z2]; [|right; exact Z2]. left. rewrite Z1, Z2. ceq.
    - intros c u u' [B1 E1]. split; [|intros i b Hi Hb c0; cbv [vscal]; rewrite E1 by assumption; reflexivity]. apply (SC u (fun _ _ => c) B1). intros. apply to_carr_scal.
    - intros u y [B1 _]. destruct (@single_wave_length_is_steady_lem g n m hx hy k2 smooth (to_carr s u) Hg Hm2 Hw B1) as (N & EN & SN & N0).
      split; [intros i b Hi Hb K; left; unfold ns2d_F; rewrite (@unwrapped_get s (ns2d_explicit_terms g smooth None) u N _ EN); apply N0; assumption|]. intros i b Hi Hb c. unfold ns2d_F. rewrite (@unwrapped_ok s (ns2d_explicit_terms g smooth None) u N EN), N0 by assumption. destruct c; reflexivity.
    - intros u y [B1 E1]. destruct (proj1 (@ns2d_linear_get g n m hx hy nu drag (to_carr s u) Hg Hw)) as (N & EN & SN & GN).
      split; [apply (SC u (mode_rate n m (INR n * hx) (INR m * hy) nu drag) B1); intros i b Hi Hb; unfold ns2d_G; rewrite (@unwrapped_get s (ns2d_implicit_terms g nu drag) u N _ EN), GN; reflexivity|]. intros i b Hi Hb c. unfold ns2d_G. rewrite (@unwrapped_ok s (ns2d_implicit_terms g nu drag) u N EN), GN, <- E1 by assumption. destruct c; cbn; ring.
    - intros u y h [B1 E1]. destruct (proj2 (@ns2d_linear_get g n m hx hy nu drag (to_carr s u) Hg Hw) h) as (N & EN & SN & GN).
      split; [apply (SC u (fun i b => / (1 - h * mode_rate n m (INR n * hx) (INR m * hy) nu drag i b))%R B1); intros i b Hi Hb; unfold ns2d_Ginv; rewrite (@unwrapped_get _ (fun a => ns2d_implicit_solve g nu drag a h) _ _ _ EN), GN; reflexivity|].
      intros i b Hi Hb c. unfold ns2d_Ginv. rewrite (@unwrapped_ok _ (fun a => ns2d_implicit_solve g nu drag a h) _ _ EN), GN, <- E1 by assumption. destruct c; cbn; unfold Rdiv; ring.
    - split; [intros i b Hi Hb K; unfold s; rewrite to_of; apply H1; assumption | intros i b _ _ []; reflexivity]. }
  unfold ns2d_run. fold s. match goal with |- res_rel _ _ ?l => destruct l end; destruct (spectral_steps k (ns2d_F g s smooth None) (ns2d_G g s nu drag) (ns2d_Ginv g s nu drag) dt steps (of_carr W)); cbn in H0 |- *; try exact H0.
  destruct H0 as [B1 E1]. split; [reflexivity|]. split; [exact B1|]. intros i b Hi Hb. apply Ceq; cbn; apply E1; assumption.
Qed.
(* @ex *)
Lemma single_wave_length_runs_ex_lem : grid2 sq_grid 6 6 1 1 /\ shp two_waves = [6%nat; (6 / 2 + 1)%nat] /\ one_wave_length 6 6 (INR 6 * 1) (INR 6 * 1) (2 / 36) two_waves /\ get two_waves [5; 1] = C1 /\ get two_waves [1; 1] = C1.
Proof. exact single_wave_length_is_steady_ex_lem. Qed.
