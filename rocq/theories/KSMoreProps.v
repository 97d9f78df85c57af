(** * C67: the mean, the clock, and what goes wrong at the edges *)
From Verif Require Import Prelude NdArr Spec LinAlg Cplx Grids_model FastDiag_model TimeStep_model FourierProofs FourierLine Spectral_model SpectralProps SpectralUtilProps SpectralPadProps FourierShift RealShift SpecFourier TimeStepProps SpectralStep_model SpecStep SpecKS StepRel SpectralRunProps NS2DBase NS2DRunProps KSRunProps.
Set Implicit Arguments.
Local Open Scope Z_scope.

Lemma rk3_scheme_check X (F G : vec X -> vec X) Ginv dt u : spectral_step rk3_scheme F G Ginv dt u = crank_nicolson_rk3 F G Ginv dt u. Proof. reflexivity. Qed.
Lemma rk4_scheme_check X (F G : vec X -> vec X) Ginv dt u : spectral_step rk4_scheme F G Ginv dt u = crank_nicolson_rk4 F G Ginv dt u. Proof. reflexivity. Qed.
Lemma freq_0 n h : freq n h 0 = 0%R. Proof. unfold freq, Rdiv. ring. Qed.
(* @prop C67 Runs of the Kuramoto-Sivashinsky equation never change the mean: for every grid with an even number of points (a multiple of 4 with dealiasing), every initial spectrum, scheme, step size and number of steps, a run that succeeds returns a spectrum whose mean mode is exactly the initial one. *)
Lemma ks_mean_constant_lem : forall (g : grid) (n : nat) (h : R) (smooth : bool) (k : spectral_scheme) (dt : R) (steps : nat) (U V : arr cplx),
  good_size smooth n -> grid1 g (2 * n) h -> shp U = [(n + 1)%nat] -> ks_run g smooth k dt steps U = Ok V -> shp V = shp U /\ get V [0] = get U [0].
Proof.
  intros g n h smooth k dt steps U V Hs Hg HU EV. unfold ks_run in EV. rewrite HU in *. set (sh := [(n + 1)%nat]) in *.
  set (Rl := fun (u : cvec) (y : vec bool) => forall c, u (c, [0]) = y c).
  assert (Hr : ks_rate (2 * n) h 0 = 0%R) by (unfold ks_rate; rewrite freq_0; ring).
  assert (H0 : res_rel Rl (spectral_steps k (ks_F g sh smooth) (ks_G g sh) (ks_Ginv g sh) dt steps (of_carr U)) (linear_run (fun _ : bool => 0%R) k dt steps (fun c => if c then im (get U [0]) else re (get U [0])))).
  { unfold linear_run. apply steps_rel.
    - intros c. reflexivity.
    - intros u v u' v' H1 H2 c. cbv [vadd]. rewrite H1, H2. reflexivity.
    - intros a u u' H1 c. cbv [vscal]. rewrite H1. reflexivity.
    - intros u y _ c. destruct (@ks_form g n h smooth (to_carr sh u) Hs Hg eq_refl) as (W & EW & _ & G). unfold ks_F. rewrite (@unwrapped_ok sh (ks_explicit_terms g smooth) u W EW), G, freq_0. set (z := Cscal _ (fft1 _ _ _)). clearbody z. destruct c; cbn; unfold vzero; ring.
    - intros u y H1 c. destruct (proj1 (@ks_linear_get g n h (to_carr sh u) Hg eq_refl)) as (N & EN & SN & GN). unfold ks_G. rewrite (@unwrapped_ok sh (ks_implicit_terms g) u N EN), GN, Hr. destruct c; cbn; ring.
    - intros u y r H1 c. destruct (proj2 (@ks_linear_get g n h (to_carr sh u) Hg eq_refl) r) as (N & EN & SN & GN). unfold ks_Ginv. rewrite (@unwrapped_ok sh (fun a => ks_implicit_solve g a r) u N EN), GN, Hr, <- H1. destruct c; cbn; unfold Rdiv; ring.
    - intros []; reflexivity. }
  destruct (spectral_steps k _ _ _ dt steps (of_carr U)) as [v|]; [|discriminate]. cbn [bind] in EV. injection EV as <-. split; [reflexivity|].
  destruct (linear_run _ k dt steps _) as [y|] eqn:Ey; [|contradiction]. cbn [res_rel] in H0.
  assert (Hy : forall c, y c = if c then im (get U [0]) else re (get U [0])).
  { intros c. destruct steps as [|steps]; [injection Ey as <-; reflexivity|]. pose proof (@linear_run_powers_lem bool (fun _ => 0%R) k dt steps (fun c => if c then im (get U [0]) else re (get U [0])) c) as P. rewrite Ey in P.
    destruct (amplification k dt 0) as [a|] eqn:Ea; [|contradiction]. cbn in P. destruct (amplification_factors_lem dt 0) as (_ & _ & _ & _ & A5). rewrite (A5 eq_refl k a Ea) in P. rewrite P. rewrite pow1. ring. }
  apply Ceq; cbn; rewrite H0, Hy; reflexivity.
Qed.
(* @ex *)
Lemma ks_mean_constant_ex_lem : exists V, good_size true 2 /\ grid1 ex_grid1 (2 * 2) (1/4) /\ shp (afull [3%nat] C1) = [(2 + 1)%nat] /\ ks_run ex_grid1 true CrankNicolsonRK2 1 3 (afull [3%nat] C1) = Ok V.
Proof.
  eexists. split; [split; [lia | exists 1%nat; reflexivity]|]. split; [repeat split; try lia; lra|]. split; [reflexivity|]. unfold ks_run, spectral_steps, spectral_step. cbv beta iota delta [bind]. reflexivity.
Qed.
(** ** Burgers *)
Lemma burgers_form g n h forcing U t : good_size true n -> grid1 g (2 * n) h -> shp U = [(n + 1)%nat] -> (forall f t, forcing = Some f -> shp (f t) = [(2 * n)%nat]) ->
  exists W, burgers_explicit_terms g forcing (U, t) = Ok (W, 1%R) /\ shp W = shp U /\
    forall k, get W [k] = Cadd (match forcing with Some f => get (rfftn (f t)) [k] | None => C0 end)
      (Copp (Cscal (2 / 3) (fft1 (prod_points true n) (fun j => RtoC (gvals (prod_points true n) (3 / 2) (n + 1) (fun k => get U [k]) j *
               gvals (prod_points true n) (3 / 2) (n + 1) (fun k => Cmul (Cmul two_pi_i (RtoC (freq (2 * n) h k))) (get U [k])) j)) k))).
Proof.
  intros Hs Hg HU Hf. unfold burgers_explicit_terms. rewrite (rfft_axes1 Hg). cbn [bind]. rewrite ew_ok by (cbn [shp]; rewrite HU, half_points; reflexivity). cbn [bind]. set (D := amap2 _ _ _). assert (SD : shp D = [(n + 1)%nat]) by (unfold D; cbn [shp amap2]; rewrite half_points; reflexivity).
  destruct (@to_grid_get true n U Hs HU) as (u & Eu & Su & Gu). destruct (@to_grid_get true n D Hs SD) as (d & Ed & Sd & Gd). cbn [to_grid] in Eu, Ed. rewrite Eu, Ed. cbn [bind]. rewrite ew_ok by (rewrite Su, Sd; reflexivity). cbn [bind].
  destruct (@from_grid_get true n (amap2 Rmult u d) Hs Su) as (W & EW & SW & GW). cbn [from_grid] in EW. rewrite EW. cbn [bind].
  assert (GA : forall k, get (amap Copp W) [k] = Copp (Cscal (2 / 3) (fft1 (prod_points true n) (fun j => RtoC (gvals (prod_points true n) (3 / 2) (n + 1) (fun k => get U [k]) j * gvals (prod_points true n) (3 / 2) (n + 1) (fun k => Cmul (Cmul two_pi_i (RtoC (freq (2 * n) h k))) (get U [k])) j)) k))).
  { intros k. cbn [get amap]. rewrite GW. do 2 f_equal. apply fft1_ext. intros j _. cbn [get amap2]. rewrite Gu, Gd. reflexivity. }
  destruct forcing as [f|].
  - specialize (Hf f t eq_refl). destruct (@rfftn1 (f t) _ Hf) as [SF _]. unfold plain_rfft. rewrite Hf. cbn [nth]. replace (2 * n =? 0)%nat with false by (symmetry; apply Nat.eqb_neq; destruct Hs; lia). cbn [bind]. rewrite ew_ok by (cbn [shp amap]; rewrite SF, SW, half_points; reflexivity). cbn [bind].
    eexists. split; [reflexivity|]. split; [cbn [shp amap2]; rewrite SF, HU, half_points; reflexivity|]. intros k. cbn [get amap2]. rewrite GA. reflexivity.
  - eexists. split; [reflexivity|]. split; [cbn [shp amap]; congruence|]. intros k. rewrite GA. ring.
Qed.
Definition heat_rate (n : nat) (h nu : R) (k : Z) : R := (- (nu * (2 * PI * freq n h k) ^ 2))%R.
Lemma burgers_linear_get g n h nu U t : grid1 g (2 * n) h -> shp U = [(n + 1)%nat] ->
  (exists L, burgers_implicit_terms g nu (U, t) = Ok (L, 0%R) /\ shp L = shp U /\ forall i, get L [i] = Cscal (heat_rate (2 * n) h nu i) (get U [i])) /\
  (forall dt, exists x, burgers_implicit_solve g nu (U, t) dt = Ok (x, t) /\ shp x = shp U /\ forall i, get x [i] = Cscal (/ (1 - dt * heat_rate (2 * n) h nu i)) (get U [i])).
Proof.
  intros Hg HU. unfold burgers_implicit_solve, burgers_implicit_terms, burgers_linear_term, linear_solve. rewrite (rfft_axes1 Hg). cbn [bind fst snd].
  assert (EL : forall k, Cscal nu (Cpow (Cmul two_pi_i (RtoC (freq (2 * n) h k))) 2) = RtoC (heat_rate (2 * n) h nu k)) by (intros k; unfold heat_rate; apply Ceq; cbn; ring).
  split; [|intros dt]; rewrite ew_ok by (cbn [shp amap]; rewrite HU, half_points; reflexivity); cbn [bind]; eexists; (split; [reflexivity|]); (split; [cbn [shp amap2 amap]; rewrite HU, half_points; reflexivity|]); intros i; cbn [get amap2 amap nth]; rewrite EL.
  - ceq.
  - rewrite <- Cdiv_real. f_equal. f_equal. ceq.
Qed.
(** Unwrapping pairs. *)
Lemma unwrapped_pair_ok s f u N t : f (to_bstate s u) = Ok (N, t) -> unwrapped_pair s f u None = t /\ forall c ix, unwrapped_pair s f u (Some (c, ix)) = if c then im (get N ix) else re (get N ix).
Proof. intros E. unfold unwrapped_pair. rewrite E. split; reflexivity. Qed.
(** A component that the explicit terms advance at rate 1 and on which nothing else acts. *)
Section Clock.
Variables (X : Type) (x : X) (F G : vec X -> vec X) (Ginv : vec X -> R -> vec X).
Hypothesis (HF : forall u, F u x = 1%R) (HG : forall u, G u x = 0%R) (HI : forall u h, Ginv u h x = u x).
Lemma clock_bfe dt u : exists v, spectral_step BackwardForwardEuler F G Ginv dt u = Ok v /\ v x = (u x + dt)%R.
Proof. eexists. split; [reflexivity|]. unfold backward_forward_euler. rewrite HI. cbv [vadd vscal]. rewrite HF. ring. Qed.
Lemma clock_cn2 dt u : exists v, spectral_step CrankNicolsonRK2 F G Ginv dt u = Ok v /\ v x = (u x + dt)%R.
Proof. eexists. split; [reflexivity|]. unfold crank_nicolson_rk2. cbv zeta. rewrite HI. cbv [vadd vscal]. rewrite !HF, HG. field. Qed.
Lemma clock_rk3 dt u : exists v, spectral_step rk3_scheme F G Ginv dt u = Ok v /\ v x = (u x + dt)%R.
Proof.
  eexists. split; [unfold spectral_step, rk3_scheme, low_storage_rk_cn; cbn [length Z.of_nat negb andb]; cbn -[Z.of_nat]; reflexivity|].
  repeat (rewrite HI; cbv [vadd vscal]; rewrite ?HF, ?HG). cbv [vzero]. field.
Qed.
Lemma clock_rk4 dt u : exists v, spectral_step rk4_scheme F G Ginv dt u = Ok v /\ (Rabs (v x - (u x + dt)) <= Rabs dt / 10 ^ 13)%R.
Proof.
  eexists. split; [unfold spectral_step, rk4_scheme, low_storage_rk_cn; cbn [length Z.of_nat negb andb]; cbn -[Z.of_nat]; reflexivity|].
  repeat (rewrite HI; cbv [vadd vscal]; rewrite ?HF, ?HG). cbv [vzero]. 
  set (q := (1496590219993 / 10000000000000 + 3792103129999 / 10000000000000 * (1 - 4178904745 / 10000000000 * 1) + 8229550293869 / 10000000000000 * (1 - 1192151694643 / 1000000000000 * (1 - 4178904745 / 10000000000 * 1)) + 6994504559488 / 10000000000000 * (1 - 1697784692471 / 1000000000000 * (1 - 1192151694643 / 1000000000000 * (1 - 4178904745 / 10000000000 * 1))) + 1530572479681 / 10000000000000 * (1 - 1514183444257 / 1000000000000 * (1 - 1697784692471 / 1000000000000 * (1 - 1192151694643 / 1000000000000 * (1 - 4178904745 / 10000000000 * 1)))) - 1)%R).
  match goal with |- (Rabs ?e <= _)%R => replace e with (dt * q)%R by (unfold q; field) end.
  rewrite Rabs_mult. unfold Rdiv. apply Rmult_le_compat_l; [apply Rabs_pos|]. unfold q. apply Rabs_le. lra.
Qed.
Lemma clock_sil3 dt u : exists v, spectral_step (Imex sil3_tableau) F G Ginv dt u = Ok v /\ v x = (u x + dt)%R.
Proof.
  destruct (imex_stages_exist sil3_tableau F G Ginv dt u) as [Y HY]. destruct (@imex_run X sil3_tableau F G Ginv dt u Y 4 eq_refl eq_refl eq_refl eq_refl) as (lf & lg & E & _).
  - intros [|[|[|i]]] Hi; cbn in *; lia.
  - intros [|[|[|i]]] Hi; cbn in *; lia.
  - exact HY.
  - cbn [spectral_step]. rewrite E. cbn [bind fst]. eexists. split; [reflexivity|]. cbv beta. unfold weight. cbn -[IZR]. rewrite !HF, !HG. field.
Qed.
Lemma clock_steps k dt (c : R) : (forall u, exists v, spectral_step k F G Ginv dt u = Ok v /\ (Rabs (v x - (u x + dt)) <= c)%R) -> forall steps u, exists v, spectral_steps k F G Ginv dt steps u = Ok v /\ (Rabs (v x - (u x + INR steps * dt)) <= INR steps * c)%R.
Proof.
  intros H steps u. induction steps as [|n IH].
  - exists u. split; [reflexivity|]. cbn [INR]. replace (u x - (u x + 0 * dt))%R with 0%R by ring. rewrite Rabs_R0. lra.
  - destruct IH as (v & E & Hv). destruct (H v) as (w & E2 & Hw). exists w. split; [cbn [spectral_steps]; rewrite E; exact E2|]. rewrite S_INR.
    replace (w x - (u x + (INR n + 1) * dt))%R with ((w x - (v x + dt)) + (v x - (u x + INR n * dt)))%R by ring. eapply Rle_trans; [apply Rabs_triang|]. lra.
Qed.
Lemma clock_exact k dt : (forall u, exists v, spectral_step k F G Ginv dt u = Ok v /\ v x = (u x + dt)%R) -> forall steps u, exists v, spectral_steps k F G Ginv dt steps u = Ok v /\ v x = (u x + INR steps * dt)%R.
Proof.
  intros H steps u. destruct (@clock_steps k dt 0) with (steps := steps) (u := u) as (v & E & Hv).
  - intros w. destruct (H w) as (v & E & Hv). exists v. split; [exact E|]. rewrite Hv. replace (w x + dt - (w x + dt))%R with 0%R by ring. rewrite Rabs_R0. lra.
  - exists v. split; [exact E|]. rewrite Rmult_0_r in Hv. apply Rminus_diag_uniq. destruct (Req_dec (v x - (u x + INR steps * dt)) 0) as [|N]; [assumption|]. apply Rabs_pos_lt in N. lra.
Qed.
End Clock.
(* @prop C67 The clock of the (forced) Burgers equation. On every grid of N = 4q points, for every forcing function returning N values, viscosity, initial spectrum, initial time t0, step size and number of steps, runs with backward_forward_euler, crank_nicolson_rk2, crank_nicolson_rk3 and imex_rk_sil3 succeed and end at time exactly t0 + steps * dt; with crank_nicolson_rk4 the final time is within steps * |dt| / 10^13 of it (its coefficients are decimals). *)
Lemma burgers_clock_lem : forall (g : grid) (n : nat) (h nu dt t0 : R) (forcing : option (R -> arr R)) (steps : nat) (U : arr cplx),
  good_size true n -> grid1 g (2 * n) h -> (forall f t, forcing = Some f -> shp (f t) = [(2 * n)%nat]) -> shp U = [(n + 1)%nat] ->
  (forall k, In k [BackwardForwardEuler; CrankNicolsonRK2; rk3_scheme; Imex sil3_tableau] ->
     exists V, burgers_run g forcing nu k dt steps (U, t0) = Ok (V, t0 + INR steps * dt)%R /\ shp V = shp U) /\
  (exists V t, burgers_run g forcing nu rk4_scheme dt steps (U, t0) = Ok (V, t) /\ shp V = shp U /\ (Rabs (t - (t0 + INR steps * dt)) <= INR steps * (Rabs dt / 10 ^ 13))%R).
Proof.
  intros g n h nu dt t0 forcing steps U Hs Hg Hf HU.
  assert (HF : forall u, burgers_F g (shp U) forcing u None = 1%R) by (intros u; destruct (@burgers_form g n h forcing (to_carr (shp U) (fun x => u (Some x))) (u None) Hs Hg HU Hf) as (W & E & _); unfold burgers_F; apply (proj1 (@unwrapped_pair_ok (shp U) (burgers_explicit_terms g forcing) u W _ E))).
  assert (HG : forall u, burgers_G g (shp U) nu u None = 0%R) by (intros u; destruct (proj1 (@burgers_linear_get g n h nu (to_carr (shp U) (fun x => u (Some x))) (u None) Hg HU)) as (W & E & _); unfold burgers_G; apply (proj1 (@unwrapped_pair_ok (shp U) (burgers_implicit_terms g nu) u W _ E))).
  assert (HI : forall u r, burgers_Ginv g (shp U) nu u r None = u None) by (intros u r; destruct (proj2 (@burgers_linear_get g n h nu (to_carr (shp U) (fun x => u (Some x))) (u None) Hg HU) r) as (W & E & _); unfold burgers_Ginv; apply (proj1 (@unwrapped_pair_ok (shp U) (fun a => burgers_implicit_solve g nu a r) u W _ E))).
  split.
  - intros k Hk. assert (H1 : forall u, exists v, spectral_step k (burgers_F g (shp U) forcing) (burgers_G g (shp U) nu) (burgers_Ginv g (shp U) nu) dt u = Ok v /\ v None = (u None + dt)%R).
    { intros u. destruct Hk as [<- | [<- | [<- | [<- | []]]]]; [apply clock_bfe | apply clock_cn2 | apply clock_rk3 | apply clock_sil3]; assumption. }
    destruct (@clock_exact _ None _ _ _ k dt H1 steps (of_bstate (U, t0))) as (v & E & Hv). unfold burgers_run. cbn [fst]. rewrite E. cbn [bind]. unfold to_bstate. rewrite Hv. eexists. split; reflexivity.
  - pose proof (@clock_rk4 _ None _ _ _ HF HG HI dt) as H1. destruct (@clock_steps _ None _ _ _ rk4_scheme dt _ H1 steps (of_bstate (U, t0))) as (v & E & Hv). unfold burgers_run. cbn [fst]. rewrite E. cbn [bind]. unfold to_bstate. eexists. eexists. split; [reflexivity|]. split; [reflexivity|]. exact Hv.
Qed.
(* @ex *)
Lemma burgers_clock_ex_lem : good_size true 2 /\ grid1 ex_grid1 (2 * 2) (1/4) /\ (forall f t, Some (fun t : R => afull [4%nat] (sin t)) = Some f -> shp (f t) = [(2 * 2)%nat]) /\ shp (afull [3%nat] C1) = [(2 + 1)%nat].
Proof. split; [split; [lia | exists 1%nat; reflexivity]|]. split; [repeat split; try lia; lra|]. split; [intros f t [= <-]; reflexivity | reflexivity]. Qed.
