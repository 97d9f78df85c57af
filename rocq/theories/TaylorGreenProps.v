(** * C47: Taylor-Green vortices and the Taylor-Green forcing *)
From Verif Require Import Prelude NdArr LinAlg Cplx Grids_model Spec Boundaries_model FD_model PRep FDProofs FDProps GridProps FastDiag_model Advection_model Equations_model PressureProps PressureSolveProps SpecNS EquationsProps EquationsMoreProps FilterProps Forcings_model SpecForce ForcingsProps.
From Coq Require Import Qreals.
Set Implicit Arguments.
Local Open Scope Z_scope.

Definition tgg (n m : nat) : grid := mkgrid [n; m] [(2 * PI - 0) / INR n; (2 * PI - 0) / INR m]%R [(0, 2 * PI)%R; (0, 2 * PI)%R].
Lemma tgg_eq n m : (0 < n)%nat -> (0 < m)%nat -> taylor_green_grid [n; m] = Ok (tgg n m).
Proof.
  intros Hn Hm. unfold taylor_green_grid, grid_init. cbn [length Nat.eqb mapM pair_of_bounds bind combine].
  destruct n; [lia|]. destruct m; [lia|]. reflexivity.
Qed.
Lemma tgg_wfg n m : (0 < n)%nat -> (0 < m)%nat -> wfg (tgg n m).
Proof.
  intros Hn Hm. pose proof PI_RGT_0. assert (H1 : forall k, (0 < k)%nat -> ((2 * PI - 0) / INR k <> 0)%R).
  { intros k Hk. apply lt_0_INR in Hk. apply Rgt_not_eq. apply Rdiv_lt_0_compat; lra. }
  repeat constructor; auto.
Qed.
Lemma coord_2pi n m o a ix : (a < 2)%nat -> (0 < n)%nat -> (0 < m)%nat ->
  coord (tgg n m) o a ix = (2 * PI * (IZR (nth a ix 0%Z) + Q2R (nth a o 0%Q)) / INR (nth a [n; m] 0%nat))%R.
Proof.
  intros Ha Hn Hm. apply lt_0_INR in Hn. apply lt_0_INR in Hm. unfold coord, hstep. destruct a as [|[|a]]; [| |lia]; cbn [tgg gdomain gstep nth fst]; field; lra.
Qed.

(* @prop C47 TaylorGreen(shape, density, viscosity, kx, ky).velocity(t, offsets), for all positive shapes and two-entry offsets, is on the grid of that shape over [0, 2 pi] x [0, 2 pi] (point a of axis d at 2 pi (a + offset) / n_d) and consists of exp(-2 nu t) cos(kx x) sin(ky y) and -exp(-2 nu t) sin(kx x) cos(ky y) at the requested offsets; without offsets, at the cell faces. *)
Lemma taylor_green_velocity_spec_lem : forall n m density nu kx ky t o0 o1, (0 < n)%nat -> (0 < m)%nat -> length o0 = 2%nat -> length o1 = 2%nat ->
  exists g u v, taylor_green_grid [n; m] = Ok g /\ wfg g /\ gshape g = [n; m] /\
    (forall o a ix, (a < 2)%nat -> coord g o a ix = 2 * PI * (IZR (nth a ix 0%Z) + Q2R (nth a o 0%Q)) / INR (nth a [n; m] 0%nat))%R /\
    taylor_green_velocity [n; m] density nu kx ky t (Some [o0; o1]) = Ok [u; v] /\ perbc g (gbc u) /\ perbc g (gbc v) /\
    is_field (garray u) g o0 (fun ix => exp (-2 * nu * t) * cos (kx * coord g o0 0 ix) * sin (ky * coord g o0 1 ix))%R /\
    is_field (garray v) g o1 (fun ix => - (exp (-2 * nu * t) * sin (kx * coord g o1 0 ix) * cos (ky * coord g o1 1 ix)))%R /\
    taylor_green_velocity [n; m] density nu kx ky t None = taylor_green_velocity [n; m] density nu kx ky t (Some (cell_faces g)).
Proof.
  intros n m density nu kx ky t o0 o1 Hn Hm H0 H1. exists (tgg n m).
  pose proof (tgg_wfg Hn Hm) as Hw. pose proof (tgg_eq Hn Hm) as Eg. unfold taylor_green_velocity. rewrite Eg. cbn [bind].
  destruct (proj1 (@mesh_points_lem (tgg n m) o0 Hw) H0) as (m0 & E0 & L0 & V0). destruct (proj1 (@mesh_points_lem (tgg n m) o1 Hw) H1) as (m1 & E1 & L1 & V1).
  change (gndim (tgg n m)) with 2%nat in *.
  destruct m0 as [|x0 [|y0 [|? ?]]]; try discriminate. destruct m1 as [|x1 [|y1 [|? ?]]]; try discriminate.
  destruct (V0 0%nat ltac:(lia)) as (S00 & V00). destruct (V0 1%nat ltac:(lia)) as (S01 & V01). destruct (V1 0%nat ltac:(lia)) as (S10 & V10). destruct (V1 1%nat ltac:(lia)) as (S11 & V11).
  cbn [nth] in *.
  change (getM [o0; o1] 0) with (Ok o0). change (getM [o0; o1] 1) with (Ok o1). cbn [bind]. rewrite E0, E1. unfold getM. cbn [bind nth_error].
  unfold mk_gvar. cbn [shp amap2 amap gdata ggrid goff]. cbn [periodic_bc btypes bind]. change (gndim (tgg n m)) with 2%nat. cbn [repeat length Nat.eqb].
  eexists; eexists. split; [reflexivity|]. split; [exact Hw|]. split; [reflexivity|]. split; [intros; apply coord_2pi; auto|]. split; [reflexivity|].
  split; [reflexivity|]. split; [reflexivity|]. cbn [garray]. split; [|split; [|reflexivity]].
  - split; [reflexivity|]. split; [apply off_eq_refl|]. split; [exact S00|]. intros ix _. cbn [gdata amap2 amap get]. rewrite V00, V01. reflexivity.
  - split; [reflexivity|]. split; [apply off_eq_refl|]. split; [exact S10|]. intros ix _. cbn [gdata amap2 amap get]. rewrite V10, V11. ring.
Qed.

Lemma firstn_nth {A} (l : list A) a n d : (a < n)%nat -> nth a (firstn n l) d = nth a l d.
Proof. revert a n. induction l as [|x l IH]; intros [|a] [|n] H; cbn; try lia; auto. apply IH. lia. Qed.
Lemma inb_firstn s ix n : inb s ix -> inb (firstn n s) (firstn n ix).
Proof. revert ix n. induction s as [|k s IH]; intros [|i ix] [|n] H; cbn [inb firstn] in *; try tauto. split; [tauto | apply IH; tauto]. Qed.

(* @prop C47 taylor_green_forcing on every 2- or 3-dimensional grid returns a force that does not depend on the velocity, on the cell faces: scale times the Taylor-Green pattern whose angles run once around each of the first two axes whatever the domain, constant along the third axis, with third component zero; in any other dimension it raises. *)
Lemma taylor_green_forcing_spec_lem : forall g scale k, wfg g ->
  (gndim g = 2%nat \/ gndim g = 3%nat ->
   exists F f, taylor_green_forcing g scale k = Ok F /\ (forall v, F v = Ok f) /\ length f = gndim g /\
    forall i w, nth_error f i = Some w -> is_field w g (offs i (1 # 2) (cell_center g)) (taylor_green_force g scale k i)) /\
  (gndim g = 1%nat \/ (3 < gndim g)%nat -> exists e, taylor_green_forcing g scale k = Err e).
Proof.
  intros g scale k Hw. split.
  - intros Hd. unfold taylor_green_forcing.
    assert (Hs : exists n m r, gshape g = n :: m :: r /\ (0 < n)%nat /\ (0 < m)%nat).
    { unfold gndim in Hd. pose proof (proj1 (proj2 (proj2 Hw))) as Hp. destruct (gshape g) as [|n [|m r]] eqn:E; cbn [length] in Hd; try lia. exists n, m, r.
      inversion Hp as [|? ? X1 X2]; subst. inversion X2; subst. auto. }
    destruct Hs as (n & m & r & Es & Hn & Hm). rewrite Es. cbn [firstn].
    set (o0 := [(1 + 1) / 2; (0 + 1) / 2]%Q). set (o1 := [(0 + 1) / 2; (1 + 1) / 2]%Q).
    destruct (@taylor_green_velocity_spec_lem n m 1 0 k k 0 o0 o1 Hn Hm eq_refl eq_refl) as (tg & u & v & Eg & Hwt & St & Co & Ev & _ & _ & Pu & Pv & Ed).
    assert (Ecf : cell_faces tg = [o0; o1]) by (rewrite (tgg_eq Hn Hm) in Eg; injection Eg as <-; reflexivity).
    rewrite Ed, Ecf, Ev. cbn [bind]. unfold getM. cbn [nth_error bind].
    destruct Pu as (Gu & Ou & Su & Vu). destruct Pv as (Gv & Ov & Sv & Vv). rewrite St in Su, Sv, Vu, Vv.
    assert (Q1 : Q2R ((1 + 1) / 2) = 1%R) by (unfold Q2R; cbn; field). assert (Qh : Q2R ((0 + 1) / 2) = (1 / 2)%R) by (unfold Q2R; cbn; field).
    assert (Fu : forall ix, inb (gshape g) ix -> (get (gdata (garray u)) (firstn 2%nat ix) * scale = taylor_green_force g scale k 0 ix)%R).
    { intros ix Hix. apply (@inb_firstn _ _ 2%nat) in Hix. rewrite Es in Hix. cbn [firstn] in Hix. rewrite Vu by exact Hix. rewrite !Co by lia. unfold o0. cbn [nth]. rewrite Q1, Qh.
      unfold taylor_green_force, angle. rewrite Es. cbn [nth]. rewrite !firstn_nth by lia. replace (-2 * 0 * 0)%R with 0%R by ring. rewrite exp_0. ring. }
    assert (Fv : forall ix, inb (gshape g) ix -> (get (gdata (garray v)) (firstn 2%nat ix) * scale = taylor_green_force g scale k 1 ix)%R).
    { intros ix Hix. apply (@inb_firstn _ _ 2%nat) in Hix. rewrite Es in Hix. cbn [firstn] in Hix. rewrite Vv by exact Hix. rewrite !Co by lia. unfold o1. cbn [nth]. rewrite Q1, Qh.
      unfold taylor_green_force, angle. rewrite Es. cbn [nth]. rewrite !firstn_nth by lia. replace (-2 * 0 * 0)%R with 0%R by ring. rewrite exp_0. ring. }
    destruct Hd as [Hd|Hd]; rewrite Hd; cbn [Nat.eqb].
    + assert (Er : r = []) by (unfold gndim in Hd; rewrite Es in Hd; destruct r; [reflexivity | discriminate]). subst r.
      eexists; eexists; split; [reflexivity|]. split; [intros; reflexivity|]. split; [reflexivity|].
      assert (F2 : forall ix, inb (gshape g) ix -> firstn 2%nat ix = ix) by (intros ix Hix; apply firstn_all2; rewrite (inb_length _ _ Hix), Es; cbn; lia).
      intros i w Hi. destruct i as [|[|i]]; cbn [nth_error] in Hi; [| |destruct i; discriminate]; injection Hi as <-; (split; [reflexivity|]; split; [|split]; cbn [goff gdata amap shp get]).
      * eapply off_eq_trans; [exact Ou|]. unfold cell_center. rewrite Hd. repeat constructor.
      * congruence.
      * intros ix Hix. rewrite <- Fu, F2 by exact Hix. reflexivity.
      * eapply off_eq_trans; [exact Ov|]. unfold cell_center. rewrite Hd. repeat constructor.
      * congruence.
      * intros ix Hix. rewrite <- Fv, F2 by exact Hix. reflexivity.
    + unfold append_z. cbn [amap shp firstn]. rewrite Su, Sv, shape_eqb_refl. cbn [bind].
      eexists; eexists; split; [reflexivity|]. split; [intros; reflexivity|]. split; [reflexivity|].
      intros i w Hi. destruct i as [|[|[|i]]]; cbn [nth_error] in Hi; [| | |destruct i; discriminate]; injection Hi as <-; (split; [reflexivity|]; split; [|split]; cbn [goff gdata amap shp get afull]).
      * unfold cell_center. rewrite Hd. repeat constructor.
      * congruence.
      * intros ix Hix. rewrite <- Fu by exact Hix. reflexivity.
      * unfold cell_center. rewrite Hd. repeat constructor.
      * congruence.
      * intros ix Hix. rewrite <- Fv by exact Hix. reflexivity.
      * unfold cell_center. rewrite Hd. repeat constructor.
      * congruence.
      * intros ix _. reflexivity.
  - intros Hd. unfold taylor_green_forcing. destruct (taylor_green_velocity _ _ _ _ _ _ _) as [uv|e] eqn:E; cbn [bind]; [|eauto].
    destruct Hd as [Hd|Hd].
    + exfalso. unfold gndim in Hd. destruct (gshape g) as [|n [|? ?]]; discriminate.
    + destruct (getM uv 0); cbn [bind]; [|eauto]. destruct (getM uv 1); cbn [bind]; [|eauto]. destruct (Nat.eqb_spec (gndim g) 2); [lia|]. destruct (Nat.eqb_spec (gndim g) 3); [lia|]. eauto.
Qed.

(** ** divergence and totals *)
Lemma trig_2piZ x z : cos (x + 2 * PI * IZR z) = cos x /\ sin (x + 2 * PI * IZR z) = sin x.
Proof.
  pose proof (cis_2piZ z) as H. unfold cis in H. pose proof (f_equal re H) as Hc. pose proof (f_equal im H) as Hs. cbn [re im C1 RtoC] in Hc, Hs.
  split; [rewrite cos_plus | rewrite sin_plus]; rewrite Hc, Hs; ring.
Qed.
Lemma angle_wrap g a q ix : wfg g -> (a < gndim g)%nat -> length ix = gndim g -> exists z, angle g a q (wrap (gshape g) ix) = (angle g a q ix + 2 * PI * IZR z)%R.
Proof.
  intros Hw Ha HL. unfold angle. rewrite wrap_nth by auto. assert (Hn : (0 < nth a (gshape g) 0)%nat) by (apply allpos_nth; [apply Hw | exact Ha]).
  set (n := nth a (gshape g) 0%nat) in *. set (i := nth a ix 0). exists (- (i / Z.of_nat n)).
  rewrite Zmod_eq_full by lia. rewrite minus_IZR, mult_IZR, opp_IZR, <- INR_IZR_INZ. apply lt_0_INR in Hn. field. lra.
Qed.
Lemma trig_angle_wrap g a q ix z : wfg g -> (a < gndim g)%nat -> length ix = gndim g ->
  cos (IZR z * angle g a q (wrap (gshape g) ix)) = cos (IZR z * angle g a q ix) /\ sin (IZR z * angle g a q (wrap (gshape g) ix)) = sin (IZR z * angle g a q ix).
Proof.
  intros Hw Ha HL. destruct (@angle_wrap g a q ix Hw Ha HL) as (y & ->). replace (IZR z * (angle g a q ix + 2 * PI * IZR y))%R with (IZR z * angle g a q ix + 2 * PI * IZR (z * y))%R by (rewrite mult_IZR; ring).
  apply trig_2piZ.
Qed.
Lemma force_wrap g c z i ix : wfg g -> (2 <= gndim g)%nat -> length ix = gndim g -> taylor_green_force g c (IZR z) i (wrap (gshape g) ix) = taylor_green_force g c (IZR z) i ix.
Proof.
  intros Hw Hd HL. assert (H := fun a q (Ha : (a < gndim g)%nat) => @trig_angle_wrap g a q ix z Hw Ha HL).
  unfold taylor_green_force. destruct i as [|[|i]]; [| |reflexivity].
  - rewrite (proj1 (H 0%nat 1%R ltac:(lia))), (proj2 (H 1%nat (1 / 2)%R ltac:(lia))). reflexivity.
  - rewrite (proj1 (H 1%nat 1%R ltac:(lia))), (proj2 (H 0%nat (1 / 2)%R ltac:(lia))). reflexivity.
Qed.
Lemma angle_half g a q ix : (0 < nth a (gshape g) 0)%nat -> (angle g a q ix = angle g a 0 ix + 2 * q * (PI / INR (nth a (gshape g) 0%nat)))%R.
Proof. intros H. apply lt_0_INR in H. unfold angle. field. lra. Qed.
Lemma angle_prev_same g a q ix : (a < length ix)%nat -> (0 < nth a (gshape g) 0)%nat -> (angle g a q (prev a ix) = angle g a (q - 1) ix)%R.
Proof. intros Ha H. unfold angle, prev, shiftix. rewrite nth_upd_same by exact Ha. rewrite plus_IZR. apply lt_0_INR in H. field. lra. Qed.
Lemma angle_prev_other g a b q ix : a <> b -> angle g a q (prev b ix) = angle g a q ix.
Proof. intros H. unfold angle, prev, shiftix. rewrite nth_upd_other by auto. reflexivity. Qed.

(* @prop C47 For every integer wave number, the discrete divergence of the Taylor-Green force is, at every cell, 2 scale sin(k X) sin(k Y) (sin(k pi / m) / h_y - sin(k pi / n) / h_x) at the cell's centre angles X, Y; so on grids with equally many equal cells along the first two axes it is discretely divergence free, and its components always sum to zero. *)
Lemma taylor_green_forcing_divergence_lem : forall g scale z, wfg g -> gndim g = 2%nat \/ gndim g = 3%nat ->
  exists F f d, taylor_green_forcing g scale (IZR z) = Ok F /\ (forall v, F v = Ok f) /\ (forall w, In w f -> total (gdata w) = 0%R) /\
    divergence (as_periodic g f) = Ok d /\
    is_field d g (cell_center g) (fun ix => 2 * scale * sin (IZR z * angle g 0 (1 / 2) ix) * sin (IZR z * angle g 1 (1 / 2) ix) *
      (sin (IZR z * PI / INR (nth 1 (gshape g) 0%nat)) / hstep g 1 - sin (IZR z * PI / INR (nth 0 (gshape g) 0%nat)) / hstep g 0))%R /\
    (nth 0 (gshape g) 0%nat = nth 1 (gshape g) 0%nat -> hstep g 0 = hstep g 1 -> is_field d g (cell_center g) (fun _ => 0%R)).
Proof.
  intros g scale z Hw Hd. destruct (proj1 (@taylor_green_forcing_spec_lem g scale (IZR z) Hw) Hd) as (F & f & E & Hf & HL & V).
  exists F, f. destruct (@as_periodic_vec g f (taylor_green_force g scale (IZR z)) Hw HL) as (Hp & Ha & Hv).
  { intros i Hi. apply V. apply nth_error_nth'. lia. }
  destruct (@divergence_spec_lem g (cell_center g) (as_periodic g f) ltac:(lia) Hp (repeat_length _ _) Ha) as (d & Ed & Hdv).
  assert (P : forall a, (a < gndim g)%nat -> (0 < nth a (gshape g) 0)%nat) by (intros a Hlt; apply allpos_nth; [apply Hw | exact Hlt]).
  assert (H0 : (0 < nth 0 (gshape g) 0)%nat) by (apply P; lia). assert (H1 : (0 < nth 1 (gshape g) 0)%nat) by (apply P; lia).
  assert (Key : is_field d g (cell_center g) (fun ix => 2 * scale * sin (IZR z * angle g 0 (1 / 2) ix) * sin (IZR z * angle g 1 (1 / 2) ix) *
      (sin (IZR z * PI / INR (nth 1 (gshape g) 0%nat)) / hstep g 1 - sin (IZR z * PI / INR (nth 0 (gshape g) 0%nat)) / hstep g 0))%R).
  { eapply prep_ext; [|exact Hdv]. intros ix Hix. cbv beta. pose proof (inb_length _ _ Hix) as HLx.
    rewrite (@nsum_ext (gndim g) _ (fun i => (taylor_green_force g scale (IZR z) i ix - taylor_green_force g scale (IZR z) i (prev i ix)) / hstep g i)%R).
    2: { intros i Hi. assert (Hpl : length (prev i ix) = gndim g) by (unfold prev; rewrite shiftix_length; exact HLx). rewrite !Hv by auto. rewrite !force_wrap by (auto; lia). reflexivity. }
    assert (E2 : forall G, G 2%nat = 0%R -> nsum (gndim g) G = (G 0%nat + G 1%nat)%R).
    { intros G HG. destruct Hd as [-> | ->]; unfold nsum; cbn; [|rewrite HG]; ring. }
    rewrite E2 by (cbn [taylor_green_force]; unfold Rdiv; ring). cbn [taylor_green_force].
    rewrite (@angle_prev_same g 0%nat) by (auto; rewrite HLx; unfold gndim in Hd; lia). rewrite (@angle_prev_same g 1%nat) by (auto; rewrite HLx; unfold gndim in Hd; lia).
    rewrite !angle_prev_other by lia.
    rewrite (@angle_half g 0%nat 1) by auto. rewrite (@angle_half g 0%nat (1 - 1)) by auto. rewrite (@angle_half g 1%nat 1) by auto. rewrite (@angle_half g 1%nat (1 - 1)) by auto.
    rewrite (@angle_half g 0%nat (1 / 2)) by auto. rewrite (@angle_half g 1%nat (1 / 2)) by auto.
    set (a0 := angle g 0 0 ix). set (a1 := angle g 1 0 ix). set (d0 := (PI / INR (nth 0 (gshape g) 0%nat))%R). set (d1 := (PI / INR (nth 1 (gshape g) 0%nat))%R). set (k := IZR z).
    replace (k * PI / INR (nth 1 (gshape g) 0%nat))%R with (k * d1)%R by (unfold d1, Rdiv; ring). replace (k * PI / INR (nth 0 (gshape g) 0%nat))%R with (k * d0)%R by (unfold d0, Rdiv; ring).
    replace (k * (a0 + 2 * 1 * d0))%R with (k * (a0 + 2 * (1 / 2) * d0) + k * d0)%R by field. replace (k * (a0 + 2 * (1 - 1) * d0))%R with (k * (a0 + 2 * (1 / 2) * d0) - k * d0)%R by field.
    replace (k * (a1 + 2 * 1 * d1))%R with (k * (a1 + 2 * (1 / 2) * d1) + k * d1)%R by field. replace (k * (a1 + 2 * (1 - 1) * d1))%R with (k * (a1 + 2 * (1 / 2) * d1) - k * d1)%R by field.
    rewrite !cos_plus, !cos_minus. unfold Rdiv. ring. }
  exists d. split; [exact E|]. split; [exact Hf|]. split; [|split; [exact Ed|split; [exact Key|]]].
  - intros w Hin. destruct (In_nth_error _ _ Hin) as (i & Hi). destruct (V i w Hi) as (_ & _ & Sw & Vw). unfold total. rewrite Sw, (@asum_ext _ _ _ Vw).
    assert (Sz : forall a, (a < gndim g)%nat -> rsum (nth a (gshape g) 0%nat) (fun j => sin (IZR z * (2 * PI * (IZR j + 1 / 2) / INR (nth a (gshape g) 0%nat))))%R = 0%R).
    { intros a Hlt. specialize (P a Hlt). apply lt_0_INR in P. rewrite (@rsum_ext _ _ (fun j => sin (IZR z * (0 + (IZR j + 1 / 2) * (2 * PI / INR (nth a (gshape g) 0%nat)))))%R).
      - apply sin_rev_sum. replace (IZR z * (0 + INR (nth a (gshape g) 0%nat) * (2 * PI / INR (nth a (gshape g) 0%nat)) / 2))%R with (IZR z * PI)%R by (field; lra). apply sin_eq_0_1. exists z. reflexivity.
      - intros j _. f_equal. field. lra. }
    destruct i as [|[|i]]; [| |apply asum_0].
    + cbn [taylor_green_force]. assert (Hl : (1 < length (gshape g))%nat) by (unfold gndim in Hd; lia). rewrite (asum_axis _ _ Hl). rewrite <- (asum_0 (upd 1 1%nat (gshape g))). apply asum_ext. intros ix Hix.
      assert (HLx : length ix = gndim g) by (rewrite (inb_length _ _ Hix), upd_length; reflexivity).
      rewrite (@rsum_ext _ _ (fun j => scale * cos (IZR z * angle g 0 1 ix) * sin (IZR z * (2 * PI * (IZR j + 1 / 2) / INR (nth 1 (gshape g) 0%nat))))%R).
      * rewrite rsum_scal, Sz by lia. ring.
      * intros j _. cbn [taylor_green_force]. unfold angle. rewrite nth_upd_other by lia. rewrite nth_upd_same by (rewrite HLx; lia). ring.
    + cbn [taylor_green_force]. assert (Hl : (0 < length (gshape g))%nat) by (unfold gndim in Hd; lia). rewrite (asum_axis _ _ Hl). rewrite <- (asum_0 (upd 0 1%nat (gshape g))). apply asum_ext. intros ix Hix.
      assert (HLx : length ix = gndim g) by (rewrite (inb_length _ _ Hix), upd_length; reflexivity).
      rewrite (@rsum_ext _ _ (fun j => - scale * cos (IZR z * angle g 1 1 ix) * sin (IZR z * (2 * PI * (IZR j + 1 / 2) / INR (nth 0 (gshape g) 0%nat))))%R).
      * rewrite rsum_scal, Sz by lia. ring.
      * intros j _. cbn [taylor_green_force]. unfold angle. rewrite nth_upd_same by (rewrite HLx; lia). rewrite nth_upd_other by lia. ring.
  - intros En Eh. eapply prep_ext; [|exact Key]. intros ix _. cbv beta. rewrite En, Eh. ring.
Qed.

(* @prop C47 On anisotropic grids the Taylor-Green force is not discretely divergence free. *)
Lemma taylor_green_forcing_divergence_free_refuted_lem :
  ~ (forall g scale z F f d, wfg g -> gndim g = 2%nat -> taylor_green_forcing g scale (IZR z) = Ok F -> F [] = Ok f -> divergence (as_periodic g f) = Ok d ->
      is_field d g (cell_center g) (fun _ => 0%R)).
Proof.
  intros H. set (g := mkgrid [2%nat; 2%nat] [1%R; 2%R] [(0%R, 2%R); (0%R, 4%R)]). assert (Hw : wfg g) by (repeat constructor; (lia || lra)).
  destruct (@taylor_green_forcing_divergence_lem g 1 1 Hw (or_introl eq_refl)) as (F & f & d & E & Hf & _ & Ed & (_ & _ & _ & K) & _).
  destruct (H g 1%R 1 F f d Hw eq_refl E (Hf []) Ed) as (_ & _ & _ & Z0). assert (Hi : inb (gshape g) [0; 0]) by (cbn; lia).
  specialize (K _ Hi). rewrite (Z0 _ Hi) in K. cbn [gshape g nth INR] in K. unfold hstep, g, angle in K. cbn [gstep gshape nth INR] in K.
  replace (1 * PI / (1 + 1))%R with (PI / 2)%R in K by field. replace (1 * (2 * PI * (0 + 1 / 2) / (1 + 1)))%R with (PI / 2)%R in K by field. rewrite sin_PI2 in K. lra.
Qed.

(** ** Taylor-Green vortices as solutions of the Navier-Stokes equations *)
Lemma dl_ext f h x l : (forall s, f s = h s) -> derivable_pt_lim h x l -> derivable_pt_lim f x l.
Proof. intros E H. replace f with h by (apply functional_extensionality; intros; symmetry; apply E). exact H. Qed.
Lemma dl_lin k x : derivable_pt_lim (fun s => k * s)%R x k.
Proof. pose proof (derivable_pt_lim_scal id k x 1 (derivable_pt_lim_id x)) as H. rewrite Rmult_1_r in H. exact H. Qed.
Lemma dl_cos k x : derivable_pt_lim (fun s => cos (k * s))%R x (- k * sin (k * x))%R.
Proof. replace (- k * sin (k * x))%R with (- sin (k * x) * k)%R by ring. apply (derivable_pt_lim_comp (fun s => k * s)%R cos x k (- sin (k * x))%R); [apply dl_lin | apply derivable_pt_lim_cos]. Qed.
Lemma dl_sin k x : derivable_pt_lim (fun s => sin (k * s))%R x (k * cos (k * x))%R.
Proof. replace (k * cos (k * x))%R with (cos (k * x) * k)%R by ring. apply (derivable_pt_lim_comp (fun s => k * s)%R sin x k (cos (k * x))%R); [apply dl_lin | apply derivable_pt_lim_sin]. Qed.
Lemma dl_exp k x : derivable_pt_lim (fun s => exp (k * s))%R x (k * exp (k * x))%R.
Proof. replace (k * exp (k * x))%R with (exp (k * x) * k)%R by ring. apply (derivable_pt_lim_comp (fun s => k * s)%R exp x k (exp (k * x))%R); [apply dl_lin | apply derivable_pt_lim_exp]. Qed.
Lemma dl_scal A h f x l l' : (forall s, f s = A * h s)%R -> derivable_pt_lim h x l -> l' = (A * l)%R -> derivable_pt_lim f x l'.
Proof. intros E H ->. apply (@dl_ext _ _ _ _ E). exact (derivable_pt_lim_scal h A x l H). Qed.
Lemma dl_affine A C h f x l l' : (forall s, f s = A * h s + C)%R -> derivable_pt_lim h x l -> l' = (A * l)%R -> derivable_pt_lim f x l'.
Proof.
  intros E H ->. apply (@dl_ext _ _ _ _ E). replace (A * l)%R with (A * l + 0)%R by ring. apply (derivable_pt_lim_plus (fun s => A * h s)%R (fun _ => C)); [exact (derivable_pt_lim_scal h A x l H) | apply derivable_pt_lim_const].
Qed.

Section TG.
Variables (k nu : R).
Let E t := exp (-2 * nu * t).
Definition tgu (t x y : R) : R := (E t * cos (k * x) * sin (k * y))%R.
Definition tgv (t x y : R) : R := (- (E t * sin (k * x) * cos (k * y)))%R.
Lemma tgu_t : d_t tgu (fun t x y => -2 * nu * tgu t x y)%R.
Proof. intros t x y. unfold tgu, E. apply (@dl_scal (cos (k * x) * sin (k * y)) (fun s => exp (-2 * nu * s)))%R with (l := (-2 * nu * exp (-2 * nu * t))%R); [intros; ring | apply dl_exp | ring]. Qed.
Lemma tgv_t : d_t tgv (fun t x y => -2 * nu * tgv t x y)%R.
Proof. intros t x y. unfold tgv, E. apply (@dl_scal (- (sin (k * x) * cos (k * y))) (fun s => exp (-2 * nu * s)))%R with (l := (-2 * nu * exp (-2 * nu * t))%R); [intros; ring | apply dl_exp | ring]. Qed.
Definition tgs (t x y : R) : R := (k * (E t * sin (k * x) * sin (k * y)))%R.
Definition tgc (t x y : R) : R := (k * (E t * cos (k * x) * cos (k * y)))%R.
Lemma tgu_x : d_x tgu (fun t x y => - tgs t x y)%R.
Proof. intros t x y. unfold tgu, tgs. apply (@dl_scal (E t * sin (k * y)) (fun s => cos (k * s)))%R with (l := (- k * sin (k * x))%R); [intros; ring | apply dl_cos | ring]. Qed.
Lemma tgu_y : d_y tgu tgc.
Proof. intros t x y. unfold tgu, tgc. apply (@dl_scal (E t * cos (k * x)) (fun s => sin (k * s)))%R with (l := (k * cos (k * y))%R); [intros; ring | apply dl_sin | ring]. Qed.
Lemma tgv_x : d_x tgv (fun t x y => - tgc t x y)%R.
Proof. intros t x y. unfold tgv, tgc. apply (@dl_scal (- (E t * cos (k * y))) (fun s => sin (k * s)))%R with (l := (k * cos (k * x))%R); [intros; ring | apply dl_sin | ring]. Qed.
Lemma tgv_y : d_y tgv tgs.
Proof. intros t x y. unfold tgv, tgs. apply (@dl_scal (- (E t * sin (k * x))) (fun s => cos (k * s)))%R with (l := (- k * sin (k * y))%R); [intros; ring | apply dl_cos | ring]. Qed.
Lemma tgs_x : d_x (fun t x y => - tgs t x y)%R (fun t x y => - k * k * tgu t x y)%R.
Proof. intros t x y. unfold tgs, tgu. apply (@dl_scal (- (k * (E t * sin (k * y)))) (fun s => sin (k * s)))%R with (l := (k * cos (k * x))%R); [intros; ring | apply dl_sin | ring]. Qed.
Lemma tgc_y : d_y tgc (fun t x y => - k * k * tgu t x y)%R.
Proof. intros t x y. unfold tgc, tgu. apply (@dl_scal (k * (E t * cos (k * x))) (fun s => cos (k * s)))%R with (l := (- k * sin (k * y))%R); [intros; ring | apply dl_cos | ring]. Qed.
Lemma tgc_x : d_x (fun t x y => - tgc t x y)%R (fun t x y => - k * k * tgv t x y)%R.
Proof. intros t x y. unfold tgc, tgv. apply (@dl_scal (- (k * (E t * cos (k * y)))) (fun s => cos (k * s)))%R with (l := (- k * sin (k * x))%R); [intros; ring | apply dl_cos | ring]. Qed.
Lemma tgs_y : d_y tgs (fun t x y => - k * k * tgv t x y)%R.
Proof. intros t x y. unfold tgs, tgv. apply (@dl_scal (k * (E t * sin (k * x))) (fun s => sin (k * s)))%R with (l := (k * cos (k * y))%R); [intros; ring | apply dl_sin | ring]. Qed.
(** the pressure that balances the advection *)
Definition tgp (t x y : R) : R := (- (E t * E t / 4) * cos (2 * k * x) + - (E t * E t / 4) * cos (2 * k * y))%R.
Definition tgpx (t x y : R) : R := (E t * E t * k * (sin (k * x) * cos (k * x)))%R.
Definition tgpy (t x y : R) : R := (E t * E t * k * (sin (k * y) * cos (k * y)))%R.
Lemma sin2 z : (sin (2 * k * z) = 2 * (sin (k * z) * cos (k * z)))%R.
Proof. replace (2 * k * z)%R with (2 * (k * z))%R by ring. rewrite sin_2a. ring. Qed.
Lemma tgp_x : d_x tgp tgpx.
Proof.
  intros t x y. unfold tgp, tgpx. apply (@dl_affine (- (E t * E t / 4)) (- (E t * E t / 4) * cos (2 * k * y)) (fun s => cos (2 * k * s)))%R with (l := (- (2 * k) * sin (2 * k * x))%R); [intros; ring | apply dl_cos | rewrite sin2; field].
Qed.
Lemma tgp_y : d_y tgp tgpy.
Proof.
  intros t x y. unfold tgp, tgpy. apply (@dl_affine (- (E t * E t / 4)) (- (E t * E t / 4) * cos (2 * k * x)) (fun s => cos (2 * k * s)))%R with (l := (- (2 * k) * sin (2 * k * y))%R); [intros; ring | apply dl_cos | rewrite sin2; field].
Qed.
Lemma tg_advect_u t x y : (tgu t x y * - tgs t x y + tgv t x y * tgc t x y = - tgpx t x y)%R.
Proof.
  unfold tgu, tgs, tgv, tgc, tgpx. pose proof (sin2_cos2 (k * y)) as H. unfold Rsqr in H.
  transitivity (- (E t * E t * k * (sin (k * x) * cos (k * x))) * (sin (k * y) * sin (k * y) + cos (k * y) * cos (k * y)))%R; [ring | rewrite H; ring].
Qed.
Lemma tg_advect_v t x y : (tgu t x y * - tgc t x y + tgv t x y * tgs t x y = - tgpy t x y)%R.
Proof.
  unfold tgu, tgs, tgv, tgc, tgpy. pose proof (sin2_cos2 (k * x)) as H. unfold Rsqr in H.
  transitivity (- (E t * E t * k * (sin (k * y) * cos (k * y))) * (sin (k * x) * sin (k * x) + cos (k * x) * cos (k * x)))%R; [ring | rewrite H; ring].
Qed.
End TG.

(* @prop C47 With the default kx = ky = 1, TaylorGreen.velocity samples, at all times, shapes and offsets, an exact solution of the incompressible Navier-Stokes equations whose kinematic viscosity is the given one, for every viscosity. *)
Lemma taylor_green_exact_solution_lem : forall density nu,
  exists U V P, samples (fun shape t offsets => taylor_green_velocity shape density nu 1 1 t offsets) U V /\ solves_navier_stokes nu U V P /\
    forall t x y, (U t (x + 2 * PI) y = U t x y /\ U t x (y + 2 * PI) = U t x y /\ V t (x + 2 * PI) y = V t x y /\ V t x (y + 2 * PI) = V t x y)%R.
Proof.
  intros density nu. exists (tgu 1 nu), (tgv 1 nu), (tgp 1 nu). split; [|split].
  - intros n m t o0 o1 Hn Hm H0 H1. destruct (@taylor_green_velocity_spec_lem n m density nu 1 1 t o0 o1 Hn Hm H0 H1) as (g & u & v & Eg & _ & Sg & _ & E & _ & _ & Pu & Pv & _).
    exists g, u, v. split; [exact E|]. split; [exact Sg|]. split; [rewrite (tgg_eq Hn Hm) in Eg; injection Eg as <-; reflexivity|]. split; [exact Pu | exact Pv].
  - do 12 eexists. split; [apply tgu_t|]. split; [apply tgu_x|]. split; [apply tgu_y|]. split; [apply tgs_x|]. split; [apply tgc_y|].
    split; [apply tgv_t|]. split; [apply tgv_x|]. split; [apply tgv_y|]. split; [apply tgc_x|]. split; [apply tgs_y|]. split; [apply tgp_x|]. split; [apply tgp_y|].
    intros t x y. pose proof (tg_advect_u 1 nu t x y). pose proof (tg_advect_v 1 nu t x y). cbv beta in *. split; [ring|]. split; lra.
  - intros t x y. unfold tgu, tgv. replace (1 * (x + 2 * PI))%R with (1 * x + 2 * INR 1 * PI)%R by (simpl; ring). replace (1 * (y + 2 * PI))%R with (1 * y + 2 * INR 1 * PI)%R by (simpl; ring).
    rewrite !cos_period, !sin_period. auto.
Qed.

(** ** other wave numbers *)
Lemma dense_2pi x d : (0 < d)%R -> exists i n, (0 < n)%nat /\ (Rabs (2 * PI * IZR i / INR n - x) < d)%R.
Proof.
  intros Hd. pose proof PI_RGT_0 as HP. assert (H : (0 < 2 * PI / d)%R) by (apply Rdiv_lt_0_compat; lra).
  set (n := Z.to_nat (up (2 * PI / d))). pose proof (archimed (2 * PI / d)) as (A & _).
  assert (Hup : 0 < up (2 * PI / d)) by (apply lt_IZR; lra). assert (En : INR n = IZR (up (2 * PI / d))) by (unfold n; rewrite INR_IZR_INZ, Z2Nat.id by lia; reflexivity).
  exists (up (x * INR n / (2 * PI)))%R, n. split; [unfold n; lia|]. pose proof (archimed (x * INR n / (2 * PI))) as (B1 & B2). set (i := IZR (up (x * INR n / (2 * PI)))) in *. rewrite <- En in A.
  assert (Hn : (0 < INR n)%R) by lra. assert (E : (2 * PI * i / INR n - x = 2 * PI / INR n * (i - x * INR n / (2 * PI)))%R) by (field; lra). rewrite E.
  assert (S : (0 < 2 * PI / INR n < d)%R).
  { split; [apply Rdiv_lt_0_compat; lra|]. apply (Rmult_lt_reg_r (INR n)); [lra|]. replace (2 * PI / INR n * INR n)%R with (d * (2 * PI / d))%R by (field; lra). apply Rmult_lt_compat_l; lra. }
  rewrite Rabs_right by (apply Rle_ge, Rmult_le_pos; lra). apply Rle_lt_trans with (2 * PI / INR n * 1)%R; [|lra]. apply Rmult_le_compat_l; lra.
Qed.
Lemma continuous_dense f h : (forall x, continuity_pt f x) -> (forall x, continuity_pt h x) -> (forall i n, (0 < n)%nat -> f (2 * PI * IZR i / INR n)%R = h (2 * PI * IZR i / INR n)%R) -> forall x, f x = h x.
Proof.
  intros Cf Ch H x. apply Rminus_diag_uniq. apply cond_eq. intros e He. rewrite Rminus_0_r.
  destruct (Cf x (e / 2)%R ltac:(lra)) as (d1 & D1 & K1). destruct (Ch x (e / 2)%R ltac:(lra)) as (d2 & D2 & K2).
  destruct (@dense_2pi x (Rmin d1 d2)) as (i & n & Hn & Hi); [apply Rmin_pos; lra|]. set (z := (2 * PI * IZR i / INR n)%R) in *.
  destruct (Req_dec z x) as [Ez|Ez].
  - rewrite <- Ez. unfold z. rewrite H by exact Hn. rewrite Rminus_diag_eq, Rabs_R0 by reflexivity. lra.
  - assert (N : x <> z) by auto. specialize (K1 z). specialize (K2 z). cbn [dist R_met] in K1, K2. unfold D_x, no_cond, R_dist in K1, K2. simpl in K1, K2.
    specialize (K1 (conj (conj I N) (Rlt_le_trans _ _ _ Hi (Rmin_l _ _)))). specialize (K2 (conj (conj I N) (Rlt_le_trans _ _ _ Hi (Rmin_r _ _)))).
    unfold R_dist in K1, K2. assert (Ef : f z = h z) by (apply H; exact Hn). rewrite Ef in K1.
    replace (f x - h x)%R with ((h z - h x) - (h z - f x))%R by ring. apply Rle_lt_trans with (Rabs (h z - h x) + Rabs (h z - f x))%R; [|lra].
    unfold Rminus at 1. eapply Rle_trans; [apply Rabs_triang|]. rewrite Rabs_Ropp. lra.
Qed.
Lemma dl_cont f x l : derivable_pt_lim f x l -> continuity_pt f x.
Proof. intros H. apply derivable_continuous_pt. exists l. exact H. Qed.
Lemma samples_unique density nu kx ky U V Ux Uy Vx Vy : samples (fun shape t offsets => taylor_green_velocity shape density nu kx ky t offsets) U V ->
  d_x U Ux -> d_y U Uy -> d_x V Vx -> d_y V Vy ->
  forall t x y, U t x y = (exp (-2 * nu * t) * cos (kx * x) * sin (ky * y))%R /\ V t x y = (- (exp (-2 * nu * t) * sin (kx * x) * cos (ky * y)))%R.
Proof.
  intros HS HUx HUy HVx HVy t.
  assert (Hr : forall i n j m, (0 < n)%nat -> (0 < m)%nat -> let x := (2 * PI * IZR i / INR n)%R in let y := (2 * PI * IZR j / INR m)%R in
    U t x y = (exp (-2 * nu * t) * cos (kx * x) * sin (ky * y))%R /\ V t x y = (- (exp (-2 * nu * t) * sin (kx * x) * cos (ky * y)))%R).
  { intros i n j m Hn Hm x y. set (o := [i # 1; j # 1]%Q).
    destruct (HS n m t o o Hn Hm eq_refl eq_refl) as (g & u & v & E & Sg & Dg & (Gu & _ & _ & Vu) & (Gv & _ & _ & Vv)).
    destruct (@taylor_green_velocity_spec_lem n m density nu kx ky t o o Hn Hm eq_refl eq_refl) as (g' & u' & v' & _ & _ & Sg' & Co & E' & _ & _ & (Gu' & _ & _ & Vu') & (Gv' & _ & _ & Vv') & _).
    rewrite E in E'. injection E' as <- <-. rewrite Gu in Gu'. subst g'.
    assert (Hin : inb (gshape g) [0; 0]) by (rewrite Sg; cbn; lia). specialize (Vu _ Hin). specialize (Vv _ Hin). specialize (Vu' _ Hin). specialize (Vv' _ Hin).
    rewrite Vu' in Vu. rewrite Vv' in Vv. rewrite !Co in Vu, Vv by lia. cbn [nth o] in Vu, Vv.
    assert (Qx : forall p, Q2R (p # 1) = IZR p) by (intros p; unfold Q2R; cbn; field). rewrite !Qx in Vu, Vv. rewrite !Rplus_0_l in Vu, Vv. auto. }
  assert (C1 : forall k x, continuity_pt (fun s => cos (k * s)) x) by (intros k x; exact (dl_cont (dl_cos k x))).
  assert (C2 : forall k x, continuity_pt (fun s => sin (k * s)) x) by (intros k x; exact (dl_cont (dl_sin k x))).
  assert (Cc : forall (A B : R) f x, continuity_pt f x -> continuity_pt (fun s => A * f s * B)%R x).
  { intros A B f x Cf. apply (continuity_pt_mult (fun s => A * f s)%R (fun _ => B)); [apply (continuity_pt_mult (fun _ => A) f); [apply continuity_pt_const; intros ? ?; reflexivity | exact Cf] | apply continuity_pt_const; intros ? ?; reflexivity]. }
  assert (U1 : forall j m x, (0 < m)%nat -> let y := (2 * PI * IZR j / INR m)%R in U t x y = (exp (-2 * nu * t) * cos (kx * x) * sin (ky * y))%R).
  { intros j m x Hm y. apply (@continuous_dense (fun s => U t s y) (fun s => exp (-2 * nu * t) * cos (kx * s) * sin (ky * y))%R); [intros; exact (dl_cont (HUx t _ y)) | intros; apply Cc, C1 | intros i n Hn; apply (Hr i n j m Hn Hm)]. }
  assert (V1 : forall j m x, (0 < m)%nat -> let y := (2 * PI * IZR j / INR m)%R in V t x y = (- (exp (-2 * nu * t) * sin (kx * x) * cos (ky * y)))%R).
  { intros j m x Hm y. apply (@continuous_dense (fun s => V t s y) (fun s => - (exp (-2 * nu * t) * sin (kx * s) * cos (ky * y)))%R); [intros; exact (dl_cont (HVx t _ y)) | | intros i n Hn; apply (Hr i n j m Hn Hm)].
    intros. apply (continuity_pt_opp (fun s => exp (-2 * nu * t) * sin (kx * s) * cos (ky * y))%R). apply Cc, C2. }
  intros x y. split.
  - apply (@continuous_dense (fun s => U t x s) (fun s => exp (-2 * nu * t) * cos (kx * x) * sin (ky * s))%R); [intros; exact (dl_cont (HUy t x _)) | | intros j m Hm; apply (U1 j m x Hm)].
    intros s. apply (continuity_pt_mult (fun _ => exp (-2 * nu * t) * cos (kx * x))%R (fun s => sin (ky * s))%R); [apply continuity_pt_const; intros ? ?; reflexivity | apply C2].
  - apply (@continuous_dense (fun s => V t x s) (fun s => - (exp (-2 * nu * t) * sin (kx * x) * cos (ky * s)))%R); [intros; exact (dl_cont (HVy t x _)) | | intros j m Hm; apply (V1 j m x Hm)].
    intros s. apply (continuity_pt_opp (fun s => exp (-2 * nu * t) * sin (kx * x) * cos (ky * s))%R).
    apply (continuity_pt_mult (fun _ => exp (-2 * nu * t) * sin (kx * x))%R (fun s => cos (ky * s))%R); [apply continuity_pt_const; intros ? ?; reflexivity | apply C1].
Qed.

(* @prop C47 With kx different from ky the velocity TaylorGreen samples is not incompressible: no pair of differentiable fields with those samples (kx = 1, ky = 2) has zero divergence. *)
Lemma taylor_green_incompressible_refuted_lem :
  ~ (forall density nu kx ky, exists U V Ux Uy Vx Vy, samples (fun shape t offsets => taylor_green_velocity shape density nu kx ky t offsets) U V /\
       d_x U Ux /\ d_y U Uy /\ d_x V Vx /\ d_y V Vy /\ forall t x y, (Ux t x y + Vy t x y = 0)%R).
Proof.
  intros H. destruct (H 1%R 1%R 1%R 2%R) as (U & V & Ux & Uy & Vx & Vy & HS & H1 & H2 & H3 & H4 & HD). pose proof (@samples_unique _ _ _ _ _ _ _ _ _ _ HS H1 H2 H3 H4) as F.
  specialize (HD 0%R (PI / 2)%R (PI / 4)%R).
  assert (A : Ux 0%R (PI / 2)%R (PI / 4)%R = (-1)%R).
  { eapply uniqueness_limite; [apply H1|]. apply (@dl_scal (sin (2 * (PI / 4))) (fun s => cos (1 * s)) _ _ (- 1 * sin (1 * (PI / 2))))%R; [| apply dl_cos |].
    - intros s. rewrite (proj1 (F 0%R s (PI / 4)%R)). replace (-2 * 1 * 0)%R with 0%R by ring. rewrite exp_0. ring.
    - replace (2 * (PI / 4))%R with (PI / 2)%R by field. rewrite Rmult_1_l, sin_PI2. ring. }
  assert (B : Vy 0%R (PI / 2)%R (PI / 4)%R = 2%R).
  { eapply uniqueness_limite; [apply H4|]. apply (@dl_scal (- sin (1 * (PI / 2))) (fun s => cos (2 * s)) _ _ (- 2 * sin (2 * (PI / 4))))%R; [| apply dl_cos |].
    - intros s. rewrite (proj2 (F 0%R (PI / 2)%R s)). replace (-2 * 1 * 0)%R with 0%R by ring. rewrite exp_0. ring.
    - replace (2 * (PI / 4))%R with (PI / 2)%R by field. rewrite Rmult_1_l, sin_PI2. ring. }
  rewrite A, B in HD. lra.
Qed.

Lemma zero_derivative f : (forall x, derivable_pt_lim f x 0%R) -> forall a b, f a = f b.
Proof.
  intros H a b. assert (pr : derivable f) by (intros x; exists 0%R; apply H). apply (null_derivative_1 f pr). intros x. apply (derive_pt_eq_0 f x 0%R (pr x)). apply H.
Qed.
Lemma same_derivative f h f' : (forall x, derivable_pt_lim f x (f' x)) -> (forall x, derivable_pt_lim h x (f' x)) -> forall a b, (f a - f b = h a - h b)%R.
Proof.
  intros Hf Hh a b. assert (E : (f a - h a = f b - h b)%R); [|lra]. apply (@zero_derivative (fun x => f x - h x)%R). intros x. replace 0%R with (f' x - f' x)%R by ring. apply (derivable_pt_lim_minus f h); auto.
Qed.

(* @prop C47 With equal wave numbers kx = ky other than 1 (here 2) the decay rate is wrong: no differentiable velocity and pressure with those samples solve the Navier-Stokes equations with the given viscosity. *)
Lemma taylor_green_decay_refuted_lem :
  ~ (forall density nu k, exists U V P, samples (fun shape t offsets => taylor_green_velocity shape density nu k k t offsets) U V /\ solves_navier_stokes nu U V P).
Proof.
  intros H. destruct (H 1%R 1%R 2%R) as (U & V & P & HS & (Ut & Ux & Uy & Uxx & Uyy & Vt & Vx & Vy & Vxx & Vyy & Px & Py & Q1 & Q2 & Q3 & Q4 & Q5 & Q6 & Q7 & Q8 & Q9 & Q10 & Q11 & Q12 & HN)).
  pose proof (@samples_unique _ _ _ _ _ _ _ _ _ _ HS Q2 Q3 Q7 Q8) as F.
  assert (EU : U = tgu 2 1) by (do 3 (apply functional_extensionality; intros ?); rewrite (proj1 (F _ _ _)); reflexivity).
  assert (EV : V = tgv 2 1) by (do 3 (apply functional_extensionality; intros ?); rewrite (proj2 (F _ _ _)); reflexivity). subst U V.
  assert (E1 : forall t x y, Ut t x y = (-2 * 1 * tgu 2 1 t x y)%R) by (intros; eapply uniqueness_limite; [apply Q1 | apply tgu_t]).
  assert (E2 : Ux = (fun t x y => - tgs 2 1 t x y)%R) by (do 3 (apply functional_extensionality; intros ?); eapply uniqueness_limite; [apply Q2 | apply tgu_x]).
  assert (E3 : Uy = tgc 2 1) by (do 3 (apply functional_extensionality; intros ?); eapply uniqueness_limite; [apply Q3 | apply tgu_y]).
  assert (E6 : forall t x y, Vt t x y = (-2 * 1 * tgv 2 1 t x y)%R) by (intros; eapply uniqueness_limite; [apply Q6 | apply tgv_t]).
  assert (E7 : Vx = (fun t x y => - tgc 2 1 t x y)%R) by (do 3 (apply functional_extensionality; intros ?); eapply uniqueness_limite; [apply Q7 | apply tgv_x]).
  assert (E8 : Vy = tgs 2 1) by (do 3 (apply functional_extensionality; intros ?); eapply uniqueness_limite; [apply Q8 | apply tgv_y]). subst Ux Uy Vx Vy.
  assert (E4 : forall t x y, Uxx t x y = (- (2) * 2 * tgu 2 1 t x y)%R) by (intros; eapply uniqueness_limite; [apply Q4 | apply tgs_x]).
  assert (E5 : forall t x y, Uyy t x y = (- (2) * 2 * tgu 2 1 t x y)%R) by (intros; eapply uniqueness_limite; [apply Q5 | apply tgc_y]).
  assert (E9 : forall t x y, Vxx t x y = (- (2) * 2 * tgv 2 1 t x y)%R) by (intros; eapply uniqueness_limite; [apply Q9 | apply tgc_x]).
  assert (E10 : forall t x y, Vyy t x y = (- (2) * 2 * tgv 2 1 t x y)%R) by (intros; eapply uniqueness_limite; [apply Q10 | apply tgs_y]).
  assert (GX : forall x y, Px 0%R x y = (tgpx 2 1 0 x y - 6 * tgu 2 1 0 x y)%R).
  { intros x y. destruct (HN 0%R x y) as (_ & N & _). rewrite E1, E4, E5 in N. pose proof (tg_advect_u 2 1 0 x y). lra. }
  assert (GY : forall x y, Py 0%R x y = (tgpy 2 1 0 x y - 6 * tgv 2 1 0 x y)%R).
  { intros x y. destruct (HN 0%R x y) as (_ & _ & N). rewrite E6, E9, E10 in N. pose proof (tg_advect_v 2 1 0 x y). lra. }
  (* along x the pressure changes by that of tgp - 3 sin 2x sin 2y, along y by that of tgp + 3 sin 2x sin 2y *)
  set (Ex := exp (-2 * 1 * 0)).
  assert (DX : forall y a b, (P 0%R a y - P 0%R b y = (tgp 2 1 0 a y - 3 * Ex * sin (2 * a) * sin (2 * y)) - (tgp 2 1 0 b y - 3 * Ex * sin (2 * b) * sin (2 * y)))%R).
  { intros y. apply (@same_derivative (fun s => P 0%R s y) (fun s => tgp 2 1 0 s y - 3 * Ex * sin (2 * s) * sin (2 * y))%R (fun s => Px 0%R s y)); [intros; apply Q11|].
    intros x. rewrite GX. apply (derivable_pt_lim_minus (fun s => tgp 2 1 0 s y) (fun s => 3 * Ex * sin (2 * s) * sin (2 * y))%R); [apply tgp_x|].
    apply (@dl_scal (3 * Ex * sin (2 * y)) (fun s => sin (2 * s)) _ _ (2 * cos (2 * x)))%R; [intros; ring | apply dl_sin | unfold tgu; fold Ex; ring]. }
  assert (DY : forall x a b, (P 0%R x a - P 0%R x b = (tgp 2 1 0 x a + 3 * Ex * sin (2 * x) * sin (2 * a)) - (tgp 2 1 0 x b + 3 * Ex * sin (2 * x) * sin (2 * b)))%R).
  { intros x. apply (@same_derivative (fun s => P 0%R x s) (fun s => tgp 2 1 0 x s + 3 * Ex * sin (2 * x) * sin (2 * s))%R (fun s => Py 0%R x s)); [intros; apply Q12|].
    intros y. rewrite GY. replace (tgpy 2 1 0 x y - 6 * tgv 2 1 0 x y)%R with (tgpy 2 1 0 x y + (- 6 * tgv 2 1 0 x y))%R by ring.
    apply (derivable_pt_lim_plus (fun s => tgp 2 1 0 x s) (fun s => 3 * Ex * sin (2 * x) * sin (2 * s))%R); [apply tgp_y|].
    apply (@dl_scal (3 * Ex * sin (2 * x)) (fun s => sin (2 * s)) _ _ (2 * cos (2 * y)))%R; [intros; ring | apply dl_sin | unfold tgv; fold Ex; ring]. }
  pose proof (DX (PI / 4)%R (PI / 4)%R 0%R) as L1. pose proof (DY 0%R (PI / 4)%R 0%R) as L2. pose proof (DX 0%R (PI / 4)%R 0%R) as L3. pose proof (DY (PI / 4)%R (PI / 4)%R 0%R) as L4.
  replace (2 * (PI / 4))%R with (PI / 2)%R in * by field. rewrite Rmult_0_r in *. rewrite sin_PI2, sin_0 in *.
  assert (HEx : (0 < Ex)%R) by apply exp_pos. lra.
Qed.

(** ** examples *)
(* @ex *)
Lemma taylor_green_velocity_spec_ex_lem : (0 < 3)%nat /\ (0 < 4)%nat /\ length [1; 1 # 2]%Q = 2%nat /\ length [1 # 2; 1]%Q = 2%nat.
Proof. repeat split; lia. Qed.
(* @ex *)
Lemma taylor_green_forcing_spec_ex_lem : let g := mkgrid [3; 4; 2]%nat [1; 2; 3]%R [(0, 3); (1, 9); (0, 6)]%R in wfg p34g /\ gndim p34g = 2%nat /\ wfg g /\ gndim g = 3%nat.
Proof. split; [exact p34_wfg|]. split; [reflexivity|]. split; [repeat constructor; (lia || lra) | reflexivity]. Qed.
(* @ex *)
Lemma taylor_green_forcing_divergence_ex_lem : let g := mkgrid [4; 4; 2]%nat [2; 2; 3]%R [(0, 8); (1, 9); (0, 6)]%R in
  wfg g /\ gndim g = 3%nat /\ nth 0 (gshape g) 0%nat = nth 1 (gshape g) 0%nat /\ hstep g 0 = hstep g 1 /\ sin (1 * angle g 0 (1 / 2) [0; 0; 0]) <> 0%R.
Proof.
  cbv zeta. split; [repeat constructor; (lia || lra)|]. do 3 (split; [reflexivity|]). unfold angle. cbn [nth gshape INR].
  replace (1 * (2 * PI * (0 + 1 / 2) / (1 + 1 + 1 + 1)))%R with (PI / 4)%R by field. rewrite sin_PI4. apply Rgt_not_eq. apply Rdiv_lt_0_compat; [lra | apply sqrt_lt_R0; lra].
Qed.
(* @ex *)
Lemma taylor_green_exact_solution_ex_lem : exists u v, taylor_green_velocity [3%nat; 4%nat] 1 (1 / 10) 1 1 2 (Some [[1; 1 # 2]; [1 # 2; 1]]%Q) = Ok [u; v] /\ get (gdata (garray u)) [2; 1] = (exp (-2 * (1 / 10) * 2) * sin (3 * PI / 4))%R.
Proof.
  destruct (@taylor_green_velocity_spec_lem 3 4 1 (1 / 10) 1 1 2 [1; 1 # 2]%Q [1 # 2; 1]%Q ltac:(lia) ltac:(lia) eq_refl eq_refl) as (g & u & v & _ & _ & Sg & Co & E & _ & _ & (_ & _ & _ & Vu) & _).
  exists u, v. split; [exact E|]. rewrite Vu by (rewrite Sg; cbn; lia). rewrite !Co by lia. cbn [nth INR]. 
  replace (1 * (2 * PI * (2 + Q2R 1) / (1 + 1 + 1)))%R with (2 * PI)%R by (unfold Q2R; cbn; field). replace (1 * (2 * PI * (1 + Q2R (1 # 2)) / (1 + 1 + 1 + 1)))%R with (3 * PI / 4)%R by (unfold Q2R; cbn; field).
  rewrite cos_2PI. ring.
Qed.
