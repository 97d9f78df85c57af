(** * C67: runs of the Burgers equation; the edges of the pseudo-spectral products *)
From Verif Require Import Prelude NdArr Spec LinAlg Cplx Grids_model FastDiag_model TimeStep_model FourierProofs FourierLine Spectral_model SpectralProps SpectralUtilProps SpectralPadProps FourierShift RealShift SpecFourier TimeStepProps SpectralStep_model SpecStep SpecKS StepRel SpectralRunProps NS2DBase NS2DRunProps KSRunProps KSMoreProps.
Set Implicit Arguments.
Local Open Scope Z_scope.

Lemma burgers_translate g n h s f f' t U U' W W' : good_size true n -> grid1 g (2 * n) h -> Z.Even s -> (forall r, shp (f r) = [(2 * n)%nat]) -> (forall r, shp (f' r) = [(2 * n)%nat]) ->
  (forall r j, 0 <= j < Z.of_nat (2 * n) -> get (f' r) [j] = get (f r) [(j + s) mod Z.of_nat (2 * n)]) -> shp U = [(n + 1)%nat] -> shp U' = [(n + 1)%nat] -> (forall k, 0 <= k <= Z.of_nat n -> get U' [k] = Cmul (phase (2 * n) s k) (get U [k])) ->
  burgers_explicit_terms g (Some f) (U, t) = Ok (W, 1%R) -> burgers_explicit_terms g (Some f') (U', t) = Ok (W', 1%R) -> forall k, 0 <= k <= Z.of_nat n -> get W' [k] = Cmul (phase (2 * n) s k) (get W [k]).
Proof.
  intros Hs Hg He Sf Sf' Hf HU HU' HR EW EW' k Hk. destruct (@product_shift true n s Hs ltac:(intros; exact He)) as [r Hr]. pose proof (points_pos Hs) as HM.
  destruct (@burgers_form g n h (Some f) U t Hs Hg HU ltac:(intros ? ? [= <-]; apply Sf)) as (W1 & E1 & _ & G1). rewrite EW in E1. injection E1 as <-. destruct (@burgers_form g n h (Some f') U' t Hs Hg HU' ltac:(intros ? ? [= <-]; apply Sf')) as (W1 & E1 & _ & G1'). rewrite EW' in E1. injection E1 as <-.
  rewrite G1, G1'. rewrite (@spectrum_moved n (f t) (f' t) s (proj1 Hs) (Sf t) (Sf' t) (Hf t)). set (M := prod_points true n) in *.
  set (D := fun V : arr cplx => fun k => Cmul (Cmul two_pi_i (RtoC (freq (2 * n) h k))) (get V [k])). change (fun k => Cmul (Cmul two_pi_i (RtoC (freq (2 * n) h k))) (get U [k])) with (D U). change (fun k => Cmul (Cmul two_pi_i (RtoC (freq (2 * n) h k))) (get U' [k])) with (D U').
  set (v := gvals M (3 / 2) (n + 1) (fun k => get U [k])). set (d := gvals M (3 / 2) (n + 1) (D U)).
  rewrite (@fft1_ext M (fun j => RtoC (gvals M (3 / 2) (n + 1) (fun k => get U' [k]) j * gvals M (3 / 2) (n + 1) (D U') j)) (fun j => RtoC (v (j + r) * d (j + r)))).
  - rewrite (@fft1_shift M r (fun j => RtoC (v j * d j))) by (try exact HM; intros j; unfold v, d; rewrite !gvals_mod by exact HM; reflexivity). rewrite Hr. set (ph := phase _ _ _). set (y := fft1 _ _ _). set (z := get (rfftn (f t)) [k]). clearbody ph y z. ceq.
  - intros j _. unfold v, d. rewrite <- !gvals_shift by exact HM. do 2 f_equal; apply gvals_ext; intros i Hi; unfold D; rewrite HR by lia; rewrite Hr; ring.
Qed.
(* @prop C67 Runs of the forced Burgers equation commute with translations by an even number of cells: on every grid of N = 4q points, for every pair of forcing functions where the second is the first translated by s cells at all times, every viscosity, scheme, step size, number of steps and initial time, from initial fields u and u translated by s cells, the two runs fail with the same error, or end at the same time with translated fields. *)
Lemma burgers_translations_lem : forall (g : grid) (n : nat) (h nu dt t0 : R) (f f' : R -> arr R) (k : spectral_scheme) (steps : nat) (s : Z) (u u' : arr R),
  good_size true n -> grid1 g (2 * n) h -> Z.Even s -> (forall t, shp (f t) = [(2 * n)%nat]) -> (forall t, shp (f' t) = [(2 * n)%nat]) -> shp u = [(2 * n)%nat] -> shp u' = [(2 * n)%nat] ->
  (forall t j, 0 <= j < Z.of_nat (2 * n) -> get (f' t) [j] = get (f t) [(j + s) mod Z.of_nat (2 * n)]) ->
  (forall j, 0 <= j < Z.of_nat (2 * n) -> get u' [j] = get u [(j + s) mod Z.of_nat (2 * n)]) ->
  res_rel (fun a b => snd b = snd a /\ shp (irfftn (fst a)) = shp u /\ shp (irfftn (fst b)) = shp u /\ forall j, get (irfftn (fst b)) [j] = get (irfftn (fst a)) [(j + s) mod Z.of_nat (2 * n)])
    (burgers_run g (Some f) nu k dt steps (rfftn u, t0)) (burgers_run g (Some f') nu k dt steps (rfftn u', t0)).
Proof.
  intros g n h nu dt t0 f f' k steps s u u' Hs Hg He Sf Sf' Su Su' Hf Hu. pose proof (proj1 Hs) as Hn.
  assert (SU : shp (rfftn u) = [(n + 1)%nat]) by (rewrite (proj1 (@rfftn1 u _ Su)), half_points; reflexivity). assert (SU' : shp (rfftn u') = [(n + 1)%nat]) by (rewrite (proj1 (@rfftn1 u' _ Su')), half_points; reflexivity).
  unfold burgers_run. cbn [fst]. rewrite SU, SU'. set (sh := [(n + 1)%nat]).
  set (C := fun v : bvec => to_carr sh (fun x => v (Some x))).
  set (Rl := fun v w : bvec => w None = v None /\ forall i, 0 <= i <= Z.of_nat n -> get (C w) [i] = Cmul (phase (2 * n) s i) (get (C v) [i])).
  assert (UG : forall fn v N t ix, fn (to_bstate sh v) = Ok (N, t) -> get (C (unwrapped_pair sh fn v)) ix = get N ix).
  { intros fn v N t ix E. destruct (@unwrapped_pair_ok sh fn v N t E) as [_ H]. unfold C. cbn [to_carr get]. rewrite !H. apply Ceq; reflexivity. }
  assert (H0 : res_rel Rl (spectral_steps k (burgers_F g sh (Some f)) (burgers_G g sh nu) (burgers_Ginv g sh nu) dt steps (of_bstate (rfftn u, t0))) (spectral_steps k (burgers_F g sh (Some f')) (burgers_G g sh nu) (burgers_Ginv g sh nu) dt steps (of_bstate (rfftn u', t0)))).
  { apply steps_rel.
    - split; [reflexivity|]. intros i _. change (get (C vzero) [i]) with C0. ring.
    - intros a b a' b' [T1 H1] [T2 H2]. split; [cbv [vadd]; rewrite T1, T2; reflexivity|]. intros i Hi. change (get (C (vadd a' b')) [i]) with (Cadd (get (C a') [i]) (get (C b') [i])). change (get (C (vadd a b)) [i]) with (Cadd (get (C a) [i]) (get (C b) [i])). rewrite H1, H2 by exact Hi. ring.
    - intros c a a' [T1 H1]. split; [cbv [vscal]; rewrite T1; reflexivity|]. intros i Hi. change (get (C (vscal c a')) [i]) with (Cscal c (get (C a') [i])). change (get (C (vscal c a)) [i]) with (Cscal c (get (C a) [i])). rewrite H1 by exact Hi. ceq.
    - intros a a' [T1 H1]. destruct (@burgers_form g n h (Some f) (C a) (a None) Hs Hg eq_refl ltac:(intros ? ? [= <-]; apply Sf)) as (W & EW & _). destruct (@burgers_form g n h (Some f') (C a') (a' None) Hs Hg eq_refl ltac:(intros ? ? [= <-]; apply Sf')) as (W' & EW' & _).
      unfold burgers_F. split; [rewrite (proj1 (@unwrapped_pair_ok sh (burgers_explicit_terms g (Some f)) a W _ EW)), (proj1 (@unwrapped_pair_ok sh (burgers_explicit_terms g (Some f')) a' W' _ EW')); reflexivity|].
      intros i Hi. rewrite (UG (burgers_explicit_terms g (Some f)) a W _ _ EW), (UG (burgers_explicit_terms g (Some f')) a' W' _ _ EW'). rewrite T1 in EW'. apply (@burgers_translate g n h s f f' (a None) (C a) (C a') W W'); try assumption; reflexivity.
    - intros a a' [T1 H1]. destruct (proj1 (@burgers_linear_get g n h nu (C a) (a None) Hg eq_refl)) as (W & EW & _ & GW). destruct (proj1 (@burgers_linear_get g n h nu (C a') (a' None) Hg eq_refl)) as (W' & EW' & _ & GW').
      unfold burgers_G. split; [rewrite (proj1 (@unwrapped_pair_ok sh (burgers_implicit_terms g nu) a W _ EW)), (proj1 (@unwrapped_pair_ok sh (burgers_implicit_terms g nu) a' W' _ EW')); reflexivity|].
      intros i Hi. rewrite (UG (burgers_implicit_terms g nu) a W _ _ EW), (UG (burgers_implicit_terms g nu) a' W' _ _ EW'), GW, GW', H1 by exact Hi. ceq.
    - intros a a' r [T1 H1]. destruct (proj2 (@burgers_linear_get g n h nu (C a) (a None) Hg eq_refl) r) as (W & EW & _ & GW). destruct (proj2 (@burgers_linear_get g n h nu (C a') (a' None) Hg eq_refl) r) as (W' & EW' & _ & GW').
      unfold burgers_Ginv. split; [rewrite (proj1 (@unwrapped_pair_ok sh (fun z => burgers_implicit_solve g nu z r) a W _ EW)), (proj1 (@unwrapped_pair_ok sh (fun z => burgers_implicit_solve g nu z r) a' W' _ EW')); exact T1|].
      intros i Hi. rewrite (UG (fun z => burgers_implicit_solve g nu z r) a W _ _ EW), (UG (fun z => burgers_implicit_solve g nu z r) a' W' _ _ EW'), GW, GW', H1 by exact Hi. ceq.
    - split; [reflexivity|]. intros i Hi. unfold C, sh. rewrite <- SU at 2. rewrite <- SU' at 1. change (get (to_carr (shp (rfftn u')) (of_carr (rfftn u'))) [i] = Cmul (phase (2 * n) s i) (get (to_carr (shp (rfftn u)) (of_carr (rfftn u))) [i])). rewrite !to_of. apply spectrum_moved; assumption. }
  destruct (spectral_steps k _ _ _ dt steps (of_bstate (rfftn u, t0))) as [a|], (spectral_steps k _ _ _ dt steps (of_bstate (rfftn u', t0))) as [b|]; cbn [res_rel bind] in H0 |- *; try exact H0.
  destruct H0 as [T1 H1]. unfold to_bstate. cbn [fst snd]. fold (C a) (C b). split; [exact T1|].
  assert (SI : forall V, shp V = [(n + 1)%nat] -> shp (irfftn V) = shp u) by (intros V HV; rewrite (proj1 (@irfftn1 V _ HV)), Su; f_equal; lia).
  split; [apply SI; reflexivity|]. split; [apply SI; reflexivity|]. apply field_moved; try exact H1; try reflexivity; exact Hn.
Qed.
(* @ex *)
Lemma burgers_translations_ex_lem : exists (f f' : R -> arr R) (u u' : arr R), good_size true 2 /\ grid1 ex_grid1 (2 * 2) (1/4) /\ Z.Even 2 /\ (forall t, shp (f t) = [(2 * 2)%nat]) /\ (forall t, shp (f' t) = [(2 * 2)%nat]) /\ shp u = [(2 * 2)%nat] /\ shp u' = [(2 * 2)%nat] /\
  (forall t j, 0 <= j < Z.of_nat (2 * 2) -> get (f' t) [j] = get (f t) [(j + 2) mod Z.of_nat (2 * 2)]) /\ (forall j, 0 <= j < Z.of_nat (2 * 2) -> get u' [j] = get u [(j + 2) mod Z.of_nat (2 * 2)]) /\ get u' [0] <> get u [0].
Proof.
  exists (fun t => mkarr [4%nat] (fun ix => (t * IZR (nth 0%nat ix 0%Z))%R)), (fun t => mkarr [4%nat] (fun ix => (t * IZR ((nth 0%nat ix 0 + 2) mod 4)%Z)%R)), (mkarr [4%nat] (fun ix => IZR (nth 0%nat ix 0))), (mkarr [4%nat] (fun ix => IZR ((nth 0%nat ix 0 + 2) mod 4))).
  split; [split; [lia | exists 1%nat; reflexivity]|]. split; [repeat split; try lia; lra|]. split; [exists 1; reflexivity|]. repeat split; try (intros; reflexivity). intros H. cbn in H. lra.
Qed.
(* @prop C67 The unforced Burgers equation never changes the mean: on every grid of N = 4q points, for every viscosity, initial spectrum, initial time, scheme, step size and number of steps, a run that succeeds returns a spectrum whose mean mode is exactly the initial one. *)
Lemma burgers_mean_constant_lem : forall (g : grid) (q : nat) (h nu dt t0 t : R) (k : spectral_scheme) (steps : nat) (U V : arr cplx),
  (1 <= q)%nat -> grid1 g (4 * q) h -> shp U = [(2 * q + 1)%nat] -> burgers_run g None nu k dt steps (U, t0) = Ok (V, t) -> shp V = shp U /\ get V [0] = get U [0].
Proof.
  intros g q h nu dt t0 t k steps U V Hq Hg HU EV. assert (Hg2 : grid1 g (2 * (2 * q)) h) by (replace (2 * (2 * q))%nat with (4 * q)%nat by lia; exact Hg). unfold burgers_run in EV. cbn [fst] in EV. rewrite HU in *. set (sh := [(2 * q + 1)%nat]) in *.
  set (Rl := fun (u : bvec) (y : vec bool) => forall c, u (Some (c, [0])) = y c).
  assert (Hr : heat_rate (2 * (2 * q)) h nu 0 = 0%R) by (unfold heat_rate; rewrite freq_0; ring).
  assert (H0 : res_rel Rl (spectral_steps k (burgers_F g sh None) (burgers_G g sh nu) (burgers_Ginv g sh nu) dt steps (of_bstate (U, t0))) (linear_run (fun _ : bool => 0%R) k dt steps (fun c => if c then im (get U [0]) else re (get U [0])))).
  { unfold linear_run. apply steps_rel.
    - intros c. reflexivity.
    - intros u v u' v' H1 H2 c. cbv [vadd]. rewrite H1, H2. reflexivity.
    - intros a u u' H1 c. cbv [vscal]. rewrite H1. reflexivity.
    - intros u y _ c. destruct (@ks_nonlinearity_conserves_lem g q h (to_carr sh (fun x => u (Some x))) Hq Hg eq_refl) as (_ & W & _ & EW & _ & W0 & _). unfold burgers_F. rewrite (proj2 (@unwrapped_pair_ok sh (burgers_explicit_terms g None) u W _ (EW (u None)))), W0. destruct c; reflexivity.
    - intros u y H1 c. destruct (proj1 (@burgers_linear_get g (2 * q) h nu (to_carr sh (fun x => u (Some x))) (u None) Hg2 eq_refl)) as (N & EN & SN & GN). unfold burgers_G. rewrite (proj2 (@unwrapped_pair_ok sh (burgers_implicit_terms g nu) u N _ EN)), GN, Hr. destruct c; cbn; ring.
    - intros u y r H1 c. destruct (proj2 (@burgers_linear_get g (2 * q) h nu (to_carr sh (fun x => u (Some x))) (u None) Hg2 eq_refl) r) as (N & EN & SN & GN). unfold burgers_Ginv. rewrite (proj2 (@unwrapped_pair_ok sh (fun a => burgers_implicit_solve g nu a r) u N _ EN)), GN, Hr, <- H1. destruct c; cbn; unfold Rdiv; ring.
    - intros []; reflexivity. }
  destruct (spectral_steps k _ _ _ dt steps (of_bstate (U, t0))) as [v|]; [|discriminate]. cbn [bind] in EV. unfold to_bstate in EV. injection EV as <- _. split; [reflexivity|].
  destruct (linear_run _ k dt steps _) as [y|] eqn:Ey; [|contradiction]. cbn [res_rel] in H0.
  assert (Hy : forall c, y c = if c then im (get U [0]) else re (get U [0])).
  { intros c. destruct steps as [|steps]; [injection Ey as <-; reflexivity|]. pose proof (@linear_run_powers_lem bool (fun _ => 0%R) k dt steps (fun c => if c then im (get U [0]) else re (get U [0])) c) as P. rewrite Ey in P.
    destruct (amplification k dt 0) as [a|] eqn:Ea; [|contradiction]. cbn in P. destruct (amplification_factors_lem dt 0) as (_ & _ & _ & _ & A5). rewrite (A5 eq_refl k a Ea) in P. rewrite P. rewrite pow1. ring. }
  apply Ceq; cbn; rewrite H0, Hy; reflexivity.
Qed.
(* @ex *)
Lemma burgers_mean_constant_ex_lem : exists V t, grid1 ex_grid1 (4 * 1) (1/4) /\ shp (afull [3%nat] C1) = [(2 * 1 + 1)%nat] /\ burgers_run ex_grid1 None 1 CrankNicolsonRK2 1 3 (afull [3%nat] C1, 0%R) = Ok (V, t).
Proof.
  eexists. eexists. split; [repeat split; try lia; lra|]. split; [reflexivity|]. unfold burgers_run, spectral_steps, spectral_step, to_bstate. cbv beta iota delta [bind]. reflexivity.
Qed.
