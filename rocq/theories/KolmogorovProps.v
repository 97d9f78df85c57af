(** * C65: runs of the forced flow that start from rest or from a multiple of the laminar flow *)
From Verif Require Import Prelude NdArr LinAlg Cplx Grids_model Boundaries_model FastDiag_model TimeStep_model Forcings_model FourierProofs FourierLine Spectral_model SpectralProps SpectralUtilProps FourierPlane SpecFourier NS2DBase NS2DProps SpectralStep_model SpecStep StepRel NS2DConserve NS2DMoreProps NS2DWaveProps SpectralRunProps NS2DRunProps ForcedNS_model NS2DForceProps SpecKS SteadyProps.
Set Implicit Arguments.
Local Open Scope Z_scope.

(** explicit terms on a multiple of the wave *)
Lemma forced_explicit_wave g n m hx hy dx lo hi kap smooth f W (a : R) : grid2 g n m hx hy -> gdomain g = [dx; (lo, hi)] -> 0 < 2 * kap < Z.of_nat m -> (4 * (INR m * hy) = 2 * PI * IZR kap)%R ->
  kolmogorov_forcing g 1 4 false (Some [[0; 0]; [0; 0]]%Q) = Ok f -> shp W = [n; (m / 2 + 1)%nat] ->
  let base := Cscal (INR n * INR m / 2) (cis (4 * lo)) in
  (forall i b, 0 <= i < Z.of_nat n -> 0 <= b <= Z.of_nat (m / 2) -> get W [i; b] = if (i =? 0) && (b =? kap) then Cscal a base else C0) ->
  exists E, ns2d_explicit_terms g smooth (Some (unpacked_forcing g f)) W = Ok E /\
    forall i b, 0 <= i < Z.of_nat n -> 0 <= b <= Z.of_nat (m / 2) -> get E [i; b] = if (i =? 0) && (b =? kap) then Cscal (-4) base else C0.
Proof.
  intros Hg Hd Hk HL Ef SW base GW. pose proof Hg as (Hs & Ht & Hn & Hm & Hx & Hy).
  assert (HnR : INR n <> 0%R) by (apply not_0_INR; lia). assert (HmR : INR m <> 0%R) by (apply not_0_INR; lia).
  assert (Hy4 : forall j, (4 * (lo + IZR j * hy) = 4 * lo + 2 * PI * IZR (j * kap) / INR m)%R).
  { intros j. rewrite mult_IZR. replace (2 * PI * (IZR j * IZR kap) / INR m)%R with (IZR j * (2 * PI * IZR kap) / INR m)%R by (unfold Rdiv; ring). rewrite <- HL. field. exact HmR. }
  assert (Hm2 : (2 <= m)%nat) by lia.
  assert (H1 : one_wave_length n m (INR n * hx) (INR m * hy) ((IZR kap / (INR m * hy)) ^ 2) W).
  { intros i b Hi Hb _. rewrite (GW i b Hi Hb). destruct (Z.eqb_spec i 0) as [->|]; [|left; reflexivity]. destruct (Z.eqb_spec b kap) as [->|]; [right | left; reflexivity].
    replace (row_wave n 0) with 0 by (unfold row_wave; zb; lia). unfold Rdiv. ring. }
  destruct (@single_wave_length_is_steady_lem g n m hx hy _ smooth W Hg Hm2 SW H1) as (N & EN & SN & ZN).
  destruct (@velocity_symbols g n m hx hy W Hg SW) as (U & V & EV & _).
  destruct (@kolmogorov_two g n m hx hy dx lo hi Hg Hd (irfftn U) (irfftn V)) as (f' & fx & fy & Ef' & Eu & Sx & Sy & Vx & Vy). rewrite Ef in Ef'. injection Ef' as <-.
  destruct (@ns2d_forcing_adds_curl_lem g n m hx hy smooth W U V _ fx fy Hg SW EV Eu Sx Sy) as (N0 & E & EN0 & EE & _ & SE & GE). rewrite EN in EN0. injection EN0 as <-.
  destruct (@wave_rfftn n m kap (Cmul (mkC 0 (- 1)) base) fx Sx Hn Hk) as (_ & GF).
  { intros i j. rewrite Vx, Hy4. unfold base, cis. cbn. rewrite sin_plus. field. split; assumption. }
  assert (GY : forall p q, get (rfftn fy) [p; q] = C0).
  { intros p q. destruct (rfftn2 fy Sy) as [_ G]. rewrite G. apply sum_zero_fft2. intros i j. rewrite Vy. reflexivity. }
  exists E. split; [exact EE|]. intros i b Hi Hb. rewrite (GE i b Hi Hb), (ZN i b Hi Hb), GY, (GF i b Hi Hb). unfold spectral_curl.
  destruct (Z.eqb_spec i 0) as [->|]; [|cbn [andb]; ceq]. destruct (Z.eqb_spec b kap) as [->|]; [|cbn [andb]; ceq]. cbn [andb].
  replace (row_wave n 0) with 0 by (unfold row_wave; zb; lia).
  assert (Hf : (2 * PI * freq m hy kap = 4)%R).
  { unfold freq. replace (2 * PI * (IZR kap / (INR m * hy)))%R with (2 * PI * IZR kap / (INR m * hy))%R by (unfold Rdiv; ring). rewrite <- HL. field. split; [lra | exact HmR]. }
  set (k := freq m hy kap) in *. clearbody k base. destruct base as [br bi]. clear - Hf. apply Ceq; cbn.
  - transitivity (- ((2 * PI * k) * br))%R; [ring|]. rewrite Hf. ring.
  - transitivity (- ((2 * PI * k) * bi))%R; [ring|]. rewrite Hf. ring.
Qed.

(* @prop C65 Runs of ForcedNavierStokes2D from rest, or from any multiple a cos(4 y) of the laminar vorticity, stay in that family: for every grid on which the forcing is periodic and resolved, every viscosity, smooth flag, spectral scheme, dt and number of steps, the run has the same outcome as the same scheme applied to the scalar problem da/dt = -4 - (16 viscosity + 1/10) a (the -4 explicit, the rest implicit): it fails with the same error, or succeeds with the spectrum of a cos(4 y) with the scalar result for a. In exact arithmetic the flow never becomes turbulent by itself. *)
Lemma kolmogorov_relaxation_lem : forall (g : grid) (n m : nat) (hx hy : R) (dx : R * R) (lo hi : R) (kap : Z) (viscosity : R) (smooth : option bool) (k : spectral_scheme) (dt : R) (steps : nat) (a : R),
  grid2 g n m hx hy -> gdomain g = [dx; (lo, hi)] -> 0 < 2 * kap < Z.of_nat m -> (4 * (INR m * hy) = 2 * PI * IZR kap)%R ->
  let cosine := fun a : R => mkarr [n; m] (fun ix => a * cos (4 * (lo + IZR (nth 1 ix 0%Z) * hy)))%R in let damping := (16 * viscosity + 1 / 10)%R in
  res_rel (fun V y => shp V = [n; (m / 2 + 1)%nat] /\ forall i b, 0 <= i < Z.of_nat n -> 0 <= b <= Z.of_nat (m / 2) -> get V [i; b] = get (rfftn (cosine (y tt))) [i; b])
    (forced_ns2d_run g smooth viscosity k dt steps (rfftn (cosine a)))
    (spectral_steps k (fun _ _ => (-4)%R) (fun y x => - damping * y x)%R (fun y h x => y x / (1 + h * damping))%R dt steps (fun _ : unit => a)).
Proof.
  intros g n m hx hy dx lo hi kap nu smooth k dt steps a Hg Hd Hk HL cosine damp. pose proof Hg as (Hs & Ht & Hn & Hm & Hx & Hy).
  assert (HnR : INR n <> 0%R) by (apply not_0_INR; lia). assert (HmR : INR m <> 0%R) by (apply not_0_INR; lia).
  assert (Hy4 : forall j, (4 * (lo + IZR j * hy) = 4 * lo + 2 * PI * IZR (j * kap) / INR m)%R).
  { intros j. rewrite mult_IZR. replace (2 * PI * (IZR j * IZR kap) / INR m)%R with (IZR j * (2 * PI * IZR kap) / INR m)%R by (unfold Rdiv; ring). rewrite <- HL. field. exact HmR. }
  set (base := Cscal (INR n * INR m / 2) (cis (4 * lo))).
  assert (GC : forall c, shp (rfftn (cosine c)) = [n; (m / 2 + 1)%nat] /\ forall p q, 0 <= p < Z.of_nat n -> 0 <= q <= Z.of_nat (m / 2) -> get (rfftn (cosine c)) [p; q] = if (p =? 0) && (q =? kap) then Cscal c base else C0).
  { intros c. apply (@wave_rfftn n m kap (Cscal c base) (cosine c) eq_refl Hn Hk). intros i j. unfold cosine. cbn [get nth]. rewrite Hy4. unfold base, cis. cbn. rewrite cos_plus. field. split; assumption. }
  destruct (@kolmogorov_two g n m hx hy dx lo hi Hg Hd (mkarr [] (fun _ => 0%R)) (mkarr [] (fun _ => 0%R))) as (f & _ & _ & Ef & _).
  unfold forced_ns2d_run. rewrite Ef. cbn [bind]. unfold ns2d_run. destruct (GC a) as (Sa & Ga). rewrite Sa. set (s := [n; (m / 2 + 1)%nat]) in *.
  assert (Hrate : mode_rate n m (INR n * hx) (INR m * hy) nu (1 / 10) 0 kap = (- damp)%R).
  { unfold mode_rate, damp. replace (row_wave n 0) with 0 by (unfold row_wave; zb; lia).
    assert (E16 : ((2 * PI) ^ 2 * (IZR kap / (INR m * hy)) ^ 2 = 16)%R).
    { replace ((2 * PI) ^ 2 * (IZR kap / (INR m * hy)) ^ 2)%R with ((2 * PI * IZR kap / (INR m * hy)) ^ 2)%R by (unfold Rdiv; ring). rewrite <- HL. field. split; [lra | exact HmR]. }
    replace ((2 * PI) ^ 2 * ((0 / (INR n * hx)) ^ 2 + (IZR kap / (INR m * hy)) ^ 2))%R with ((2 * PI) ^ 2 * (IZR kap / (INR m * hy)) ^ 2)%R by (unfold Rdiv; ring). rewrite E16. ring. }
  set (Rl := fun (u : cvec) (y : vec unit) => forall i b, 0 <= i < Z.of_nat n -> 0 <= b <= Z.of_nat (m / 2) -> get (to_carr s u) [i; b] = if (i =? 0) && (b =? kap) then Cscal (y tt) base else C0).
  assert (H0 : res_rel Rl (spectral_steps k (ns2d_F g s smooth (Some (unpacked_forcing g f))) (ns2d_G g s nu (1 / 10)) (ns2d_Ginv g s nu (1 / 10)) dt steps (of_carr (rfftn (cosine a))))
     (spectral_steps k (fun _ _ => (-4)%R) (fun y x => - damp * y x)%R (fun y h x => y x / (1 + h * damp))%R dt steps (fun _ : unit => a))).
  { apply steps_rel.
    - intros i b _ _. destruct ((i =? 0) && (b =? kap)); [apply Ceq; cbn; unfold vzero; ring | reflexivity].
    - intros u v u' v' R1 R2 i b Hi Hb. rewrite to_carr_add, (R1 i b Hi Hb), (R2 i b Hi Hb). destruct ((i =? 0) && (b =? kap)); cbv [vadd]; ceq.
    - intros c u u' R1 i b Hi Hb. rewrite to_carr_scal, (R1 i b Hi Hb). destruct ((i =? 0) && (b =? kap)); cbv [vscal]; ceq.
    - intros u y R1 i b Hi Hb. destruct (@forced_explicit_wave g n m hx hy dx lo hi kap smooth f (to_carr s u) (y tt) Hg Hd Hk HL Ef eq_refl R1) as (E & EE & GE).
      unfold ns2d_F. rewrite (@unwrapped_get s (ns2d_explicit_terms g smooth (Some (unpacked_forcing g f))) u E _ EE). apply GE; assumption.
    - intros u y R1 i b Hi Hb. destruct (proj1 (@ns2d_linear_get g n m hx hy nu (1 / 10) (to_carr s u) Hg eq_refl)) as (N & EN & SN & GN).
      unfold ns2d_G. rewrite (@unwrapped_get s (ns2d_implicit_terms g nu (1 / 10)) u N _ EN), GN, (R1 i b Hi Hb).
      destruct (Z.eqb_spec i 0) as [->|]; [|cbn [andb]; ceq]. destruct (Z.eqb_spec b kap) as [->|]; [|cbn [andb]; ceq]. cbn [andb]. rewrite Hrate. ceq.
    - intros u y h R1 i b Hi Hb. destruct (proj2 (@ns2d_linear_get g n m hx hy nu (1 / 10) (to_carr s u) Hg eq_refl) h) as (N & EN & SN & GN).
      unfold ns2d_Ginv. rewrite (@unwrapped_get _ (fun z => ns2d_implicit_solve g nu (1 / 10) z h) _ _ _ EN), GN, (R1 i b Hi Hb).
      destruct (Z.eqb_spec i 0) as [->|]; [|cbn [andb]; ceq]. destruct (Z.eqb_spec b kap) as [->|]; [|cbn [andb]; ceq]. cbn [andb]. rewrite Hrate.
      replace (1 - h * - damp)%R with (1 + h * damp)%R by ring. apply Ceq; cbn; unfold Rdiv; ring.
    - intros i b Hi Hb. rewrite <- Sa. rewrite to_of. apply Ga; assumption. }
  destruct (spectral_steps k (ns2d_F g s smooth (Some (unpacked_forcing g f))) (ns2d_G g s nu (1 / 10)) (ns2d_Ginv g s nu (1 / 10)) dt steps (of_carr (rfftn (cosine a)))),
    (spectral_steps k (fun _ _ => (-4)%R) (fun y x => - damp * y x)%R (fun y h x => y x / (1 + h * damp))%R dt steps (fun _ : unit => a)); cbn [res_rel bind] in H0 |- *; try exact H0.
  match goal with H : Rl _ ?z |- _ => rename z into yy end.
  split; [reflexivity|]. intros i b Hi Hb. etransitivity; [exact (H0 i b Hi Hb) | symmetry; exact (proj2 (GC (yy tt)) i b Hi Hb)].
Qed.
(* @ex *)
Lemma kolmogorov_relaxation_ex_lem : exists V, forced_ns2d_run kol_grid (Some true) (1 / 1000) CrankNicolsonRK2 (1 / 100) 50 (rfftn (mkarr [4%nat; 16%nat] (fun ix => 0 * cos (4 * (0 + IZR (nth 1 ix 0%Z) * (PI / 8))))%R)) = Ok V.
Proof.
  destruct laminar_kolmogorov_flow_ex_lem as (A & B & C & D).
  pose proof (@kolmogorov_relaxation_lem kol_grid 4 16 1 (PI / 8) _ _ _ 4 (1 / 1000) (Some true) CrankNicolsonRK2 (1 / 100) 50 0 A B C D) as H. cbv zeta in H.
  assert (T : forall X F G Gi (dt : R) steps (u : vec X), exists v, spectral_steps CrankNicolsonRK2 F G Gi dt steps u = Ok v).
  { intros X F G Gi dt steps u. induction steps as [|p (v & IH)]; [eexists; reflexivity|]. cbn [spectral_steps]. rewrite IH. eexists. reflexivity. }
  destruct (T unit (fun _ _ => (-4)%R) (fun y x => - (16 * (1 / 1000) + 1 / 10) * y x)%R (fun y h x => y x / (1 + h * (16 * (1 / 1000) + 1 / 10)))%R (1 / 100)%R 50%nat (fun _ => 0%R)) as (v & E). rewrite E in H.
  destruct (forced_ns2d_run _ _ _ _ _ _ _) as [V|e]; [exists V; reflexivity | cbn [res_rel] in H; contradiction].
Qed.
(* @prop C65 The laminar Kolmogorov flow stays: started from the vorticity -4 cos(4 y) / (16 viscosity + 1/10), every number of steps of ForcedNavierStokes2D with backward_forward_euler, crank_nicolson_rk2, crank_nicolson_rk3 or imex_rk_sil3, for every dt >= 0, viscosity >= 0 and smooth flag, succeeds and returns the same spectrum. *)
Lemma laminar_kolmogorov_stays_lem : forall (g : grid) (n m : nat) (hx hy : R) (dx : R * R) (lo hi : R) (kap : Z) (viscosity : R) (smooth : option bool) (k : spectral_scheme) (dt : R) (steps : nat),
  grid2 g n m hx hy -> gdomain g = [dx; (lo, hi)] -> 0 < 2 * kap < Z.of_nat m -> (4 * (INR m * hy) = 2 * PI * IZR kap)%R -> (0 <= viscosity)%R -> (0 <= dt)%R ->
  In k [BackwardForwardEuler; CrankNicolsonRK2; rk3_scheme; Imex sil3_tableau] ->
  let w := mkarr [n; m] (fun ix => - 4 / (16 * viscosity + 1 / 10) * cos (4 * (lo + IZR (nth 1 ix 0%Z) * hy)))%R in
  exists V, forced_ns2d_run g smooth viscosity k dt steps (rfftn w) = Ok V /\ shp V = [n; (m / 2 + 1)%nat] /\
    forall i b, 0 <= i < Z.of_nat n -> 0 <= b <= Z.of_nat (m / 2) -> get V [i; b] = get (rfftn w) [i; b].
Proof.
  intros g n m hx hy dx lo hi kap nu smooth k dt steps Hg Hd Hk HL Hnu Hdt Hin w.
  pose proof (@kolmogorov_relaxation_lem g n m hx hy dx lo hi kap nu smooth k dt steps (- 4 / (16 * nu + 1 / 10)) Hg Hd Hk HL) as H. cbv beta zeta in H. fold w in H.
  rewrite (@steady_states_kept_lem unit (fun _ _ => (-4)%R) (fun y x => - (16 * nu + 1 / 10) * y x)%R (fun y h x => y x / (1 + h * (16 * nu + 1 / 10)))%R dt (fun _ => (- 4 / (16 * nu + 1 / 10))%R) k steps Hdt) in H; [| | |exact Hin].
  - destruct (forced_ns2d_run g smooth nu k dt steps (rfftn w)) as [V|e]; cbn [res_rel bind] in H; [|contradiction]. exists V. split; [reflexivity|]. exact H.
  - intros x. field. lra.
  - intros h Hh. apply functional_extensionality. intros x. assert (D : (0 < 16 * nu + 1 / 10)%R) by lra. assert (D2 : (0 < 1 + h * (16 * nu + 1 / 10))%R) by nra. set (D3 := (16 * nu + 1 / 10)%R) in *. field. split; lra.
Qed.
(* @ex *)
Lemma laminar_kolmogorov_stays_ex_lem : grid2 kol_grid 4 16 1 (PI / 8) /\ gdomain kol_grid = [(0%R, 4%R); (0%R, (2 * PI)%R)] /\ 0 < 2 * 4 < Z.of_nat 16 /\ (4 * (INR 16 * (PI / 8)) = 2 * PI * IZR 4)%R /\ (0 <= 1 / 1000)%R.
Proof. destruct laminar_kolmogorov_flow_ex_lem as (A & B & C & D). repeat split; auto; try apply A; lra. Qed.
