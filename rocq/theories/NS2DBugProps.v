(** * C65: what the two-dimensional spectral equation does not do *)
From Verif Require Import Prelude NdArr LinAlg Cplx Grids_model FastDiag_model FourierProofs FourierLine Spectral_model SpectralProps SpectralUtilProps FourierPlane SpecFourier NS2DBase NS2DProps.
Set Implicit Arguments.
Local Open Scope Z_scope.

(** Reading a stored spectrum as a real field and transforming back. *)
Lemma rfft_irfft U n m : shp U = [n; (m / 2 + 1)%nat] -> (0 < n)%nat -> (0 < m)%nat -> Nat.Even m ->
  shp (irfftn U) = [n; m] /\ forall p q, 0 <= p < Z.of_nat n -> 0 <= q < Z.of_nat m -> get (rfftn (irfftn U)) [p; q] = herm2 n m (fun p q => get U [p; q]) p q.
Proof.
  intros HU Hn Hm He. destruct (@irfftn2 U n m HU Hn Hm He) as [S G]. split; [exact S|]. intros p q Hp Hq. destruct (rfftn2 _ S) as [_ G2]. rewrite G2.
  rewrite (@fft2_ext n m _ (ifft2 n m (herm2 n m (fun p q => get U [p; q])))) by (intros; apply G). apply fft2_ifft2; assumption.
Qed.
Lemma ns2d_form_none g n m hx hy W : grid2 g n m hx hy -> Nat.Even m -> shp W = [n; (m / 2 + 1)%nat] -> no_nyquist n m (fun p q => get W [p; q]) ->
  exists N, ns2d_explicit_terms g None None W = Ok N /\
    forall p q, get N [p; q] = fft2 n m (adv_field n m hx hy (herm2 n m (fun p q => get W [p; q]))) p q.
Proof.
  intros Hg He Hw HN. pose proof (rfft_mesh2 Hg) as Em. destruct (@velocity_symbols g n m hx hy W Hg Hw) as (U & V & EV & SU & SV & GUV).
  destruct Hg as (Hs & _ & Hn & Hm & Hx & Hy). destruct (@brick_get g n m Hs Hn Hm) as (F & EF & SF & _).
  unfold ns2d_explicit_terms. rewrite Em, EF, EV. cbn [bind fst snd]. rewrite ew_ok by (rewrite Hw; reflexivity). cbn [bind]. rewrite ew_ok by (rewrite Hw; reflexivity). cbn [bind].
  set (gx := amap2 _ (mesh_x n m hx) W). set (gy := amap2 _ (mesh_y n m hy) W).
  destruct (@field_symbol n m U W (uxs n m hx hy)) as [S1 G1]; try assumption; [congruence | apply uxs_neg | intros; apply GUV; assumption |].
  destruct (@field_symbol n m V W (uys n m hx hy)) as [S2 G2]; try assumption; [congruence | apply uys_neg | intros; apply GUV; assumption |].
  destruct (@field_symbol n m gx W (dxs n hx)) as [S3 G3]; try assumption; [reflexivity | apply dxs_neg | intros; reflexivity |].
  destruct (@field_symbol n m gy W (dys m hy)) as [S4 G4]; try assumption; [reflexivity | apply dys_neg | intros; reflexivity |].
  rewrite ew_ok by congruence. cbn [bind]. rewrite ew_ok by congruence. cbn [bind]. rewrite ew_ok by (cbn; congruence). cbn [bind].
  match goal with |- context [rfftn ?x] => set (adv := x) end. assert (Sa : shp adv = [n; m]) by (unfold adv; cbn; exact S3).
  destruct (@rfftn2 adv n m Sa) as [S5 G5].
  eexists. split; [reflexivity|]. intros p q. rewrite G5. apply fft2_ext. intros i j _ _.
  unfold adv, adv_field. cbn [get amap amap2]. rewrite <- G1, <- G2, <- G3, <- G4. ceq.
Qed.
(** The field 2 cos(2 pi x) + 2 cos(pi y) (up to its scale) on ex_grid2, by its spectrum. *)
Definition crossed : arr cplx := mkarr [4%nat; 3%nat] (fun ix => let i := nth 0 ix 0 in let j := nth 1 ix 0 in
  if ((i =? 1) || (i =? 3)) && (j =? 0) || (i =? 0) && (j =? 1) then C1 else C0).
Definition crossed_full (p q : Z) : cplx := if ((p =? 1) || (p =? 3)) && (q =? 0) || (p =? 0) && ((q =? 1) || (q =? 3)) then C1 else C0.
Lemma four_cases p : 0 <= p < 4 -> p = 0 \/ p = 1 \/ p = 2 \/ p = 3. Proof. lia. Qed.
Lemma crossed_herm p q : 0 <= p < 4 -> 0 <= q < 4 -> herm2 4 4 (fun p q => get crossed [p; q]) p q = crossed_full p q.
Proof.
  intros Hp Hq. destruct (four_cases Hp) as [-> | [-> | [-> | ->]]]; destruct (four_cases Hq) as [-> | [-> | [-> | ->]]]; unfold herm2, nneg, crossed, crossed_full; cbn; apply Ceq; cbn; lra.
Qed.
Definition crossed_field : arr R := irfftn crossed.
Lemma crossed_spec : shp crossed_field = [4%nat; 4%nat] /\ forall p q, 0 <= p < 4 -> 0 <= q < 4 -> get (rfftn crossed_field) [p; q] = crossed_full p q.
Proof.
  assert (He : Nat.Even 4) by (exists 2%nat; reflexivity). destruct (@rfft_irfft crossed 4 4 eq_refl ltac:(lia) ltac:(lia) He) as [S G]. split; [exact S|]. intros p q Hp Hq. unfold crossed_field. rewrite G by assumption. apply crossed_herm; assumption.
Qed.
Lemma fft2_neg_sum n m f1 f2 p q : fft2 n m (fun i j => Copp (Cadd (f1 i j) (f2 i j))) p q = Copp (Cadd (fft2 n m f1 p q) (fft2 n m f2 p q)).
Proof.
  unfold fft2, fft1. rewrite <- csum_plus.
  transitivity (Cmul (Copp C1) (csum n (fun k => Cadd (Cmul (dftm n p k) (csum m (fun k0 => Cmul (dftm m q k0) (f1 k k0)))) (Cmul (dftm n p k) (csum m (fun k0 => Cmul (dftm m q k0) (f2 k k0))))))); [|ceq].
  rewrite <- csum_scal. apply csum_ext. intros k _. transitivity (Cmul (dftm n p k) (Cmul (Copp C1) (Cadd (csum m (fun k0 => Cmul (dftm m q k0) (f1 k k0))) (csum m (fun k0 => Cmul (dftm m q k0) (f2 k k0)))))); [|ring].
  f_equal. rewrite <- csum_plus, <- csum_scal. apply csum_ext. intros. ring.
Qed.
(* @prop C65 (Defect) smooth=False does not switch the dealiasing filter off: for every grid and state, explicit_terms with smooth=False is exactly explicit_terms with smooth=True, and on a 4 x 4 grid with the sum of two cosines as vorticity it differs from the unfiltered advection (which only smooth=None gives). *)
Lemma ns2d_smooth_false_refuted_lem :
  (forall g forcing W, ns2d_explicit_terms g (Some false) forcing W = ns2d_explicit_terms g (Some true) forcing W) /\
  exists g w N N', grid2 g 4 4 (1/4) (1/2) /\ shp w = [4%nat; 4%nat] /\
    ns2d_explicit_terms g (Some false) None (rfftn w) = Ok N /\ ns2d_explicit_terms g None None (rfftn w) = Ok N' /\
    get N [1; 1] = C0 /\ get N' [1; 1] <> C0.
Proof.
  split; [reflexivity|]. assert (He : Nat.Even 4) by (exists 2%nat; reflexivity). destruct crossed_spec as [S G]. pose proof (rfftn2 _ S) as [SW _].
  assert (HN : no_nyquist 4 4 (fun p q => get (rfftn crossed_field) [p; q])).
  { intros p q Hp Hq K. rewrite G by lia. assert (Hq2 : q = 0 \/ q = 1 \/ q = 2) by lia. destruct (four_cases Hp) as [-> | [-> | [-> | ->]]]; destruct Hq2 as [-> | [-> | ->]]; try reflexivity; lia. }
  destruct (@ns2d_form ex_grid2 4 4 (1/4) (1/2) false (rfftn crossed_field) ex_grid2_ok ltac:(lia) He SW HN) as (F & N & a & EF & EN & _ & _ & GN).
  destruct (@ns2d_form_none ex_grid2 4 4 (1/4) (1/2) (rfftn crossed_field) ex_grid2_ok He SW HN) as (N' & EN' & GN').
  exists ex_grid2, crossed_field, N, N'. split; [apply ex_grid2_ok|]. split; [exact S|]. split; [exact EN|]. split; [exact EN'|]. split.
  - rewrite GN. destruct (@filter_kept ex_grid2 4 4 eq_refl ltac:(lia) ltac:(lia)) as (F' & EF' & _ & HF). rewrite EF in EF'. injection EF' as <-. rewrite (proj2 (HF 1 1 ltac:(cbn; lia) ltac:(cbn; lia))); [ceq|]. unfold kept_rows, kept_columns, row_wave. cbn. lia.
  - rewrite GN'. unfold adv_field. set (H := herm2 4 4 (fun p q => get (rfftn crossed_field) [p; q])).
    assert (HH : forall p q, 0 <= p < 4 -> 0 <= q < 4 -> H p q = crossed_full p q).
    { intros p q Hp Hq. unfold H. rewrite (@herm2_ext 4 4 _ (fun p q => get crossed [p; q])); [apply crossed_herm; assumption | lia | exact Hp | exact Hq |]. intros i j Hi Hj. cbn in Hi, Hj. rewrite G by lia.
      assert (Hj2 : j = 0 \/ j = 1 \/ j = 2) by lia. destruct (four_cases Hi) as [-> | [-> | [-> | ->]]]; destruct Hj2 as [-> | [-> | ->]]; reflexivity. }
    set (A1 := fun p q => Cmul (dxs 4 (1/4) (signed 4 p) (signed 4 q)) (H p q)). set (B1 := fun p q => Cmul (uxs 4 4 (1/4) (1/2) (signed 4 p) (signed 4 q)) (H p q)).
    set (A2 := fun p q => Cmul (dys 4 (1/2) (signed 4 p) (signed 4 q)) (H p q)). set (B2 := fun p q => Cmul (uys 4 4 (1/4) (1/2) (signed 4 p) (signed 4 q)) (H p q)).
    assert (E : fft2 4 4 (fun i j => Copp (Cadd (Cmul (ifft2 4 4 A1 i j) (ifft2 4 4 B1 i j)) (Cmul (ifft2 4 4 A2 i j) (ifft2 4 4 B2 i j)))) 1 1 =
      Copp (Cadd (fft2 4 4 (fun i j => Cmul (ifft2 4 4 A1 i j) (ifft2 4 4 B1 i j)) 1 1) (fft2 4 4 (fun i j => Cmul (ifft2 4 4 A2 i j) (ifft2 4 4 B2 i j)) 1 1))).
    { apply (@fft2_neg_sum 4 4 (fun i j => Cmul (ifft2 4 4 A1 i j) (ifft2 4 4 B1 i j)) (fun i j => Cmul (ifft2 4 4 A2 i j) (ifft2 4 4 B2 i j))). }
    fold A1 B1 A2 B2. rewrite E, !convolution2 by lia. clear E GN GN' EN EN' EF HN SW.
    assert (T1 : csum2 4 4 (fun p q => Cmul (A1 p q) (B1 ((1 - p) mod Z.of_nat 4) ((1 - q) mod Z.of_nat 4))) = Cmul (dxs 4 (1/4) 1 0) (uxs 4 4 (1/4) (1/2) 0 1)).
    { unfold csum2, csum. cbn -[A1 B1]. unfold A1, B1. rewrite !HH by lia. cbn -[Cmul Cadd dxs uxs]. change (signed 4 0) with 0. change (signed 4 1) with 1. replace (dxs 4 (1/4) 0 1) with C0 by (unfold dxs, freq; apply Ceq; cbn; lra). replace (dxs 4 (1/4) 0 (-1)) with C0 by (unfold dxs, freq; apply Ceq; cbn; lra). ring. }
    assert (T2 : csum2 4 4 (fun p q => Cmul (A2 p q) (B2 ((1 - p) mod Z.of_nat 4) ((1 - q) mod Z.of_nat 4))) = Cmul (dys 4 (1/2) 0 1) (uys 4 4 (1/4) (1/2) 1 0)).
    { unfold csum2, csum. cbn -[A2 B2]. unfold A2, B2. rewrite !HH by lia. cbn -[Cmul Cadd dys uys]. change (signed 4 0) with 0. change (signed 4 1) with 1. replace (dys 4 (1/2) 1 0) with C0 by (unfold dys, freq; apply Ceq; cbn; lra). replace (dys 4 (1/2) (-1) 0) with C0 by (unfold dys, freq; apply Ceq; cbn; lra). ring. }
    rewrite T1, T2. unfold dxs, dys, uxs, uys, dxs, dys, sig, two_pi_i. cbn [Z.eqb andb]. unfold freq, wave2. intros K. apply (f_equal re) in K. cbn in K. pose proof PI_RGT_0.
    match type of K with ?x = _ => assert (Ex : x = (3 / 32)%R) by (field; repeat split; lra) end. lra.
Qed.
(* @prop C65 (Defect) An odd number of columns is silently treated as one column less: on a grid with 2k+1 columns (k >= 1) irfftn of every stored vorticity spectrum has only 2k columns, no error is raised, and explicit_terms is exactly what it is on the grid of the same domain with 2k columns - for the same stored array, which there stands for a field larger by the factor (2k+1)/(2k). *)
Lemma ns2d_odd_columns_refuted_lem : forall (g g' : grid) (n k : nat) (hx hy hy' : R), (1 <= k)%nat ->
  grid2 g n (2 * k + 1) hx hy -> grid2 g' n (2 * k) hx hy' -> (INR (2 * k + 1) * hy = INR (2 * k) * hy')%R ->
  forall (W : arr cplx), shp W = [n; ((2 * k + 1) / 2 + 1)%nat] ->
    shp (irfftn W) = [n; (2 * k)%nat] /\
    (forall smooth, is_ok (ns2d_explicit_terms g smooth None W) /\ ns2d_explicit_terms g smooth None W = ns2d_explicit_terms g' smooth None W).
Proof.
  intros g g' n k hx hy hy' Hk Hg Hg' HL W Hw.
  assert (E1 : ((2 * k + 1) / 2 = k)%nat) by (symmetry; apply Nat.div_unique with (r := 1%nat); lia). assert (E2 : ((2 * k) / 2 = k)%nat) by (symmetry; apply Nat.div_unique with (r := 0%nat); lia).
  split; [rewrite (proj1 (irfftn2_raw _ Hw)), E1; f_equal; f_equal; lia|].
  assert (EM : rfft_mesh g = rfft_mesh g').
  { rewrite (rfft_mesh2 Hg), (rfft_mesh2 Hg'). unfold mesh_x, mesh_y. rewrite E1, E2. f_equal. f_equal. f_equal. apply functional_extensionality. intros ix. unfold freq. rewrite HL. reflexivity. }
  assert (EB : brick_wall_filter_2d g = brick_wall_filter_2d g').
  { unfold brick_wall_filter_2d. rewrite (proj1 Hg), (proj1 Hg'). rewrite E1, E2. reflexivity. }
  assert (EE : forall smooth, ns2d_explicit_terms g smooth None W = ns2d_explicit_terms g' smooth None W) by (intros smooth; unfold ns2d_explicit_terms, vorticity_to_velocity; rewrite EM, EB; reflexivity).
  intros smooth. split; [|apply EE]. rewrite EE.
  assert (Hw' : shp W = [n; ((2 * k) / 2 + 1)%nat]) by (rewrite Hw, E1, E2; reflexivity). clear EE EB EM Hw Hg.
  pose proof (rfft_mesh2 Hg') as Em. destruct (@velocity_symbols g' n (2 * k) hx hy' W Hg' Hw') as (U & V & EV & SU & SV & _).
  destruct Hg' as (Hs & _ & Hn & Hm & Hx & Hy). destruct (@brick_get g' n (2 * k) Hs Hn Hm) as (F & EF & SF & _). assert (He : Nat.Even (2 * k)) by (exists k; reflexivity).
  unfold ns2d_explicit_terms. rewrite Em, EF, EV. cbn [bind fst snd]. rewrite ew_ok by (rewrite Hw'; reflexivity). cbn [bind]. rewrite ew_ok by (rewrite Hw'; reflexivity). cbn [bind].
  set (gx := amap2 _ (mesh_x n (2 * k) hx) W). set (gy := amap2 _ (mesh_y n (2 * k) hy') W).
  destruct (@irfftn2 U n (2 * k) ltac:(congruence) Hn Hm He) as [S1 _]. destruct (@irfftn2 V n (2 * k) ltac:(congruence) Hn Hm He) as [S2 _]. destruct (@irfftn2 gx n (2 * k) eq_refl Hn Hm He) as [S3 _]. destruct (@irfftn2 gy n (2 * k) eq_refl Hn Hm He) as [S4 _].
  rewrite ew_ok by congruence. cbn [bind]. rewrite ew_ok by congruence. cbn [bind]. rewrite ew_ok by (cbn [shp amap2]; congruence). cbn [bind].
  match goal with |- context [rfftn ?x] => set (adv := x) end. assert (Sa : shp adv = [n; (2 * k)%nat]) by (unfold adv; cbn [shp amap amap2]; exact S3). destruct (rfftn2 _ Sa) as [S5 _].
  destruct smooth as [b|]; [rewrite ew_ok by congruence|]; cbn [bind]; eexists; reflexivity.
Qed.
(* @prop C65 (Defect) The brick-wall filter keeps wave number -a but not a at the edge of the band, so it is not a projection of real fields: filtering the real field with spectrum at wave vectors (1, 0) and (-1, 0), reading the result as a real field and filtering again halves it. *)
Lemma brick_wall_not_a_projection_refuted_lem : exists g w F, grid2 g 4 4 (1/4) (1/2) /\ shp w = [4%nat; 4%nat] /\ brick_wall_filter_2d g = Ok F /\
  let filter := fun U : arr cplx => amap2 Cscal F U in
  get (filter (rfftn w)) [3; 0] = C1 /\ get (rfftn w) [1; 0] = C1 /\ get (filter (rfftn w)) [1; 0] = C0 /\
  get (filter (rfftn (irfftn (filter (rfftn w))))) [3; 0] = RtoC (1 / 2).
Proof.
  assert (He : Nat.Even 4) by (exists 2%nat; reflexivity). destruct crossed_spec as [S G]. destruct (@filter_kept ex_grid2 4 4 eq_refl ltac:(lia) ltac:(lia)) as (F & EF & SF & HF).
  exists ex_grid2, crossed_field, F. split; [apply ex_grid2_ok|]. split; [exact S|]. split; [exact EF|]. cbv zeta.
  assert (F3 : get F [3; 0] = 1%R) by (apply HF; [cbn; lia | cbn; lia |]; unfold kept_rows, kept_columns, row_wave; cbn; lia).
  assert (F1 : get F [1; 0] = 0%R) by (apply HF; [cbn; lia | cbn; lia |]; unfold kept_rows, kept_columns, row_wave; cbn; lia).
  assert (G3 : get (rfftn crossed_field) [3; 0] = C1) by (rewrite G by lia; reflexivity). assert (G1 : get (rfftn crossed_field) [1; 0] = C1) by (rewrite G by lia; reflexivity).
  set (P := amap2 Cscal F (rfftn crossed_field)). assert (P3 : get P [3; 0] = C1) by (unfold P; cbn [get amap2]; rewrite F3, G3; ceq). assert (P1 : get P [1; 0] = C0) by (unfold P; cbn [get amap2]; rewrite F1, G1; ceq).
  split; [exact P3|]. split; [exact G1|]. split; [exact P1|]. cbn [get amap2]. rewrite F3. assert (SP : shp P = [4%nat; (4 / 2 + 1)%nat]) by (unfold P; cbn [shp amap2]; exact SF).
  destruct (@rfft_irfft P 4 4 SP ltac:(lia) ltac:(lia) He) as [_ G2]. rewrite G2 by lia. unfold herm2. change (nneg 4 3) with 1. cbn [Z.eqb]. rewrite P3, P1. apply Ceq; cbn; lra.
Qed.
