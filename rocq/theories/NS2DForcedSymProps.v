(** * C79: symmetries of the forced flow, and examples *)
From Verif Require Import Prelude NdArr LinAlg Cplx Grids_model Boundaries_model FD_model Advection_model FastDiag_model Forcings_model TimeStep_model FourierProofs FourierLine FourierPlane Spectral_model SpectralProps SpectralUtilProps SpecFourier SpectralStep_model SpecStep NS2DBase NS2DMoreProps NS2DForceProps NS2DRunProps ForcedNS_model SpecFlow NS2DSymProps.
Set Implicit Arguments.
Local Open Scope Z_scope.

Lemma sin_periods x k : sin (x + 2 * PI * IZR k) = sin x.
Proof.
  destruct (Z_le_gt_dec 0 k) as [H|H].
  - rewrite <- (Z2Nat.id k H), <- INR_IZR_INZ. replace (2 * PI * INR (Z.to_nat k))%R with (2 * INR (Z.to_nat k) * PI)%R by ring. apply sin_period.
  - rewrite <- (sin_period (x + 2 * PI * IZR k) (Z.to_nat (- k))). f_equal. rewrite INR_IZR_INZ, Z2Nat.id, opp_IZR by lia. ring.
Qed.
(** The value of the forcing at a wrapped index. *)
Lemma wrapped_sine m (hy lo : R) kap j : (0 < m)%nat -> (4 * (INR m * hy) = 2 * PI * IZR kap)%R -> sin (4 * (lo + IZR (j mod Z.of_nat m) * hy)) = sin (4 * (lo + IZR j * hy)).
Proof.
  intros Hm HL. rewrite <- (@sin_periods (4 * (lo + IZR (j mod Z.of_nat m) * hy)) (kap * (j / Z.of_nat m))). f_equal.
  pose proof (Z.div_mod j (Z.of_nat m) ltac:(lia)) as D. set (d := j / Z.of_nat m) in *. set (e := j mod Z.of_nat m) in *. clearbody d e. rewrite D, mult_IZR, plus_IZR, mult_IZR, <- INR_IZR_INZ.
  transitivity (4 * (lo + IZR e * hy) + (4 * (INR m * hy)) * IZR d)%R; [rewrite HL; ring | ring].
Qed.
(* @prop C79 Kolmogorov flow. On every grid with an even number of columns: runs of ForcedNavierStokes2D (forcing sin(4 y), drag 1/10) commute with every translation along x; with translations by r cells along y when these r cells and the box hold whole numbers of forcing periods; and with half turns when the forcing is periodic in the box and a node of it (4 * lower y bound = a multiple of pi) lies on the first grid line. *)
Lemma kolmogorov_flow_symmetries_lem : forall (g : grid) (n m : nat) (hx hy : R) (dx : R * R) (lo hi viscosity dt : R) (smooth : option bool) (k : spectral_scheme) (steps : nat) (w w' : arr R),
  grid2 g n m hx hy -> gdomain g = [dx; (lo, hi)] -> Nat.Even m ->
  (forall s r, r = 0 \/ (exists kap z : Z, 4 * (INR m * hy) = 2 * PI * IZR kap /\ 4 * (IZR r * hy) = 2 * PI * IZR z)%R -> translated n m s r w w' ->
     res_rel (fun V V' => translated n m s r (irfftn V) (irfftn V'))
       (forced_ns2d_run g smooth viscosity k dt steps (rfftn w)) (forced_ns2d_run g smooth viscosity k dt steps (rfftn w'))) /\
  ((exists kap z : Z, 4 * (INR m * hy) = 2 * PI * IZR kap /\ 4 * lo = PI * IZR z)%R -> half_turn n m w w' ->
     res_rel (fun V V' => half_turn n m (irfftn V) (irfftn V'))
       (forced_ns2d_run g smooth viscosity k dt steps (rfftn w)) (forced_ns2d_run g smooth viscosity k dt steps (rfftn w'))).
Proof.
  intros g n m hx hy dx lo hi nu dt smooth k steps w w' Hg Hd He. pose proof Hg as (_ & _ & Hn & Hm & _ & _).
  destruct (@kolmogorov_two g n m hx hy dx lo hi Hg Hd (afull [n; m] 0%R) (afull [n; m] 0%R)) as (f & _ & _ & Ef & _). unfold forced_ns2d_run. rewrite Ef. cbn [bind].
  assert (K : forall vx vy, exists fx fy, unpacked_forcing g f vx vy = Ok (fx, fy) /\ shp fx = [n; m] /\ shp fy = [n; m] /\ (forall i j, get fx [i; j] = sin (4 * (lo + IZR j * hy))) /\ (forall i j, get fy [i; j] = 0%R)).
  { intros vx vy. destruct (@kolmogorov_two g n m hx hy dx lo hi Hg Hd vx vy) as (f' & fx & fy & Ef' & R1 & R2 & R3 & R4 & R5). rewrite Ef in Ef'. injection Ef' as <-. exists fx, fy. auto. }
  split.
  - intros s r Hr Ht. apply (@ns2d_runs_commute_with_translations_lem g n m hx hy); try assumption. intros vx vy vx' vy' _ _.
    destruct (K vx vy) as (fx & fy & E & S1 & S2 & V1 & V2). destruct (K vx' vy') as (fx' & fy' & E' & S1' & S2' & V1' & V2'). exists fx, fy, fx', fy'. split; [exact E|]. split; [exact E'|]. split; (split; [assumption|]); (split; [assumption|]); intros i j Hi Hj.
    + rewrite V1, V1'. destruct Hr as [->|(kap & z & HL & Hz)]; [rewrite Z.add_0_r, Z.mod_small by exact Hj; reflexivity|]. rewrite (@wrapped_sine m hy lo kap (j + r) Hm HL). rewrite <- (@sin_periods (4 * (lo + IZR j * hy)) z). f_equal. rewrite <- Hz, plus_IZR. ring.
    + rewrite V2, V2'. reflexivity.
  - intros (kap & z & HL & Hz) Ht. apply (@ns2d_runs_commute_with_half_turns_lem g n m hx hy); try assumption. intros vx vy vx' vy' _ _.
    destruct (K vx vy) as (fx & fy & E & S1 & S2 & V1 & V2). destruct (K vx' vy') as (fx' & fy' & E' & S1' & S2' & V1' & V2'). exists fx, fy, fx', fy'. split; [exact E|]. split; [exact E'|]. split; (split; [assumption|]); (split; [assumption|]); intros i j Hi Hj.
    + rewrite V1, V1', (@wrapped_sine m hy lo kap (- j) Hm HL). rewrite <- sin_neg. rewrite <- (@sin_periods (- (4 * (lo + IZR (- j) * hy))) z). f_equal. rewrite opp_IZR. transitivity (4 * (IZR j * hy) - 4 * lo + 2 * (4 * lo))%R; [ring | rewrite Hz at 2; ring].
    + rewrite V2, V2'. ring.
Qed.
(** ** Examples *)
Definition bump (n m : nat) (a b : Z) : arr R := mkarr [n; m] (fun ix => if (nth 0%nat ix 0 =? a) && (nth 1%nat ix 0 =? b) then 1%R else 0%R).
(* @ex *)
Lemma kolmogorov_flow_symmetries_ex_lem : grid2 kol_grid 4 16 1 (PI / 8) /\ gdomain kol_grid = [(0%R, 4%R); (0%R, (2 * PI)%R)] /\ Nat.Even 16 /\
  (4 * (INR 16 * (PI / 8)) = 2 * PI * IZR 4 /\ 4 * (IZR 4 * (PI / 8)) = 2 * PI * IZR 1 /\ 4 * 0 = PI * IZR 0)%R /\
  translated 4 16 1 4 (bump 4 16 2 5) (bump 4 16 1 1) /\ half_turn 4 16 (bump 4 16 1 5) (bump 4 16 3 11).
Proof.
  split; [exact kol_grid_ok|]. split; [reflexivity|]. split; [exists 8%nat; reflexivity|]. split; [cbn [INR]; repeat split; lra|].
  split; (split; [reflexivity|]); (split; [reflexivity|]); intros i j Hi Hj; unfold bump; cbn [get nth]; cbn in Hi, Hj.
  - assert (E1 : ((i + 1) mod Z.of_nat 4 =? 2) = (i =? 1)) by (change (Z.of_nat 4) with 4; destruct (Z.eqb_spec i 1) as [->|N]; [reflexivity|]; apply Z.eqb_neq; Z.to_euclidean_division_equations; lia).
    assert (E2 : ((j + 4) mod Z.of_nat 16 =? 5) = (j =? 1)) by (change (Z.of_nat 16) with 16; destruct (Z.eqb_spec j 1) as [->|N]; [reflexivity|]; apply Z.eqb_neq; Z.to_euclidean_division_equations; lia). rewrite E1, E2. reflexivity.
  - assert (E1 : ((- i) mod Z.of_nat 4 =? 1) = (i =? 3)) by (change (Z.of_nat 4) with 4; destruct (Z.eqb_spec i 3) as [->|N]; [reflexivity|]; apply Z.eqb_neq; Z.to_euclidean_division_equations; lia).
    assert (E2 : ((- j) mod Z.of_nat 16 =? 5) = (j =? 11)) by (change (Z.of_nat 16) with 16; destruct (Z.eqb_spec j 11) as [->|N]; [reflexivity|]; apply Z.eqb_neq; Z.to_euclidean_division_equations; lia). rewrite E1, E2. reflexivity.
Qed.
