(** * Property C56: the fast-diagonalisation pressure solver and projection with it *)
From Verif Require Import Prelude NdArr Grids_model Spec SpecLin LinAlg Cplx Boundaries_model FD_model PRep FDProofs FDProps WallBC WallBCProps ImposeProps WallFD Pressure_model PressureProps WallFDProps FastDiag_model FastDiagProofs FastDiagProps FastDiagCalc SpecDiag FastDiagImplProps Laplacian_model LaplacianProofs LaplacianProps LapSign Poincare PressureSolve_model ProjectionProps.
Set Implicit Arguments.
Local Open Scope Z_scope.

Lemma transform_selected tpu eigh func ops circ imp : ops <> [] -> Forall symmetric ops -> (circ = true -> Forall circulant ops) ->
  implementation_ready eigh ops circ imp ->
  exists i, usable eigh ops i /\
    transform tpu eigh func ops true circ (if circ then imp else Some Matmul) = transform tpu eigh func ops true true (Some i).
Proof.
  intros Hne Hs Hc Hr. unfold implementation_ready in Hr.
  assert (Hsq : forallb square ops = true).
  { apply forallb_forall. intros A HA. rewrite Forall_forall in Hs. destruct (Hs A HA) as (n & SA & _). unfold square. rewrite SA. apply Nat.eqb_refl. }
  destruct circ.
  - specialize (Hc eq_refl). destruct imp as [i|].
    + exists i. split; [|reflexivity]. destruct i; cbn [usable]; auto; contradiction.
    + destruct (@exists_last _ ops Hne) as (l & A & E).
      assert (HU : usable eigh ops (if negb (Nat.odd (nth 0 (shp A) 0%nat)) then Rfft else Matmul)).
      { destruct (Nat.odd (nth 0 (shp A) 0%nat)) eqn:Ed; cbn [negb usable]; [exact Hr|]. split; [exact Hc|]. split; [exact Hs|].
        intros l' A' E'. rewrite E in E'. apply app_inj_tail in E'. destruct E' as (_ & <-). exact Ed. }
      rewrite E in Hsq. pose proof (@default_implementation_lem eigh func l A true true Hsq) as (D1 & D2 & D3). rewrite <- E in D1, D2, D3.
      destruct tpu.
      * destruct (Z.leb_spec (Z.of_nat (fold_right Nat.max 0%nat (map mrows ops))) 1024) as [Hle|Hgt].
        -- exists Matmul. split; [exact Hr|]. apply D2. intros B HB.
           assert (H : (mrows B <= fold_right Nat.max 0%nat (map mrows ops))%nat).
           { clear -HB. induction ops as [|A ops IH]; [destruct HB|]. cbn. destruct HB as [-> | HB]; [lia|]. specialize (IH HB). lia. }
           unfold mrows in *. lia.
        -- exists (if negb (Nat.odd (nth 0 (shp A) 0%nat)) then Rfft else Matmul). split; [exact HU|]. apply D3.
           clear -Hgt. induction ops as [|B ops IH]; [cbn in Hgt; lia|]. cbn [map fold_right] in Hgt.
           destruct (Nat.max_dec (mrows B) (fold_right Nat.max 0%nat (map mrows ops))) as [Em | Em]; rewrite Em in Hgt.
           ++ exists B. split; [left; reflexivity | exact Hgt].
           ++ destruct (IH Hgt) as (B' & HB' & H'). exists B'. split; [right; exact HB' | exact H'].
      * exists (if negb (Nat.odd (nth 0 (shp A) 0%nat)) then Rfft else Matmul). split; [exact HU | exact D1].
  - exists Matmul. split; [exact Hr|]. unfold transform. rewrite Hsq. reflexivity.
Qed.

Lemma mapM_ext {A B} (f h : A -> result B) l : (forall x, In x l -> f x = h x) -> mapM f l = mapM h l.
Proof. induction l as [|x l IH]; intros H; [reflexivity|]. cbn [mapM]. rewrite (H x) by (left; reflexivity). rewrite IH by (intros; apply H; right; assumption). reflexivity. Qed.
(** Offsets matter only up to equality of rationals. *)
Lemma lap_matrices_off g o o' b : off_eq o o' -> laplacian_matrix_w_boundaries g o b = laplacian_matrix_w_boundaries g o' b.
Proof.
  intros Ho. unfold laplacian_matrix_w_boundaries. destruct (mapM _ _) as [Ms|e]; [|reflexivity]. cbn [bind].
  apply mapM_ext. intros a _. unfold lap_axis. pose proof (off_eq_nth a Ho) as E.
  assert (E1 : isclose (nth a o 0%Q) (1 # 2) = isclose (nth a o' 0%Q) (1 # 2)) by (rewrite E; reflexivity).
  assert (E2 : isclose (mod1 (nth a o 0%Q)) 0 = isclose (mod1 (nth a o' 0%Q)) 0) by (rewrite E; reflexivity).
  rewrite E1, E2. reflexivity.
Qed.

(** Without edge-aligned axes the separable operator is the laplacian. *)
Lemma lap_matrices_plain u b : wf_garr u ->
  (forall a, (a < gndim (ggrid u))%nat -> homogeneous_axis b u a /\ edge_side b (goff u) a = None /\ (3 <= nth a (gshape (ggrid u)) 0)%nat) ->
  exists Ls, laplacian_matrix_w_boundaries (ggrid u) (goff u) b = Ok Ls /\ length Ls = gndim (ggrid u) /\ sizes Ls = gshape (ggrid u) /\ Forall dissip Ls /\
    ((forall a, (a < gndim (ggrid u))%nat -> periodic_axis b a) -> Forall circulant Ls) /\
    (forall a, (a < gndim (ggrid u))%nat -> coupled (hstep (ggrid u) a) (nth a Ls (afull [] 0%R))) /\
    exists w, laplacian (mkgv u b) = Ok w /\ is_field w (ggrid u) (goff u) (separable Ls (get (gdata u))).
Proof.
  intros Hu H.
  assert (H' : forall a, (a < gndim (ggrid u))%nat -> homogeneous_axis b u a /\ enough_cells (ggrid u) b (goff u) a).
  { intros a Ha. destruct (H a Ha) as (H1 & H2 & H3). split; [exact H1|]. split; [lia | intros _; exact H3]. }
  destruct (@laplacian_matrices_axis_lem u b Hu H') as (Ls & EL & HL & HA).
  assert (His : forall a, (a < gndim (ggrid u))%nat -> inner_size (ggrid u) b (goff u) a = nth a (gshape (ggrid u)) 0%nat).
  { intros a Ha. unfold inner_size. destruct (H a Ha) as (_ & -> & _). reflexivity. }
  assert (Hst : forall a, (a < gndim (ggrid u))%nat -> inner_start b (goff u) a = 0).
  { intros a Ha. unfold inner_start. destruct (H a Ha) as (_ & -> & _). reflexivity. }
  assert (HS : sizes Ls = gshape (ggrid u)).
  { apply (list_ext_nth 0%nat); unfold sizes; rewrite map_length; [exact HL|]. rewrite HL. intros a Ha.
    rewrite (@nth_map' _ _ _ Ls a (afull [] 0%R)) by lia. destruct (HA a Ha) as (S & _). rewrite S, His by exact Ha. reflexivity. }
  destruct (@lap_matrices_dissip u b Ls Hu H' EL) as (HD & HC & HCp).
  exists Ls. split; [exact EL|]. split; [exact HL|]. split; [exact HS|]. split; [exact HD|]. split; [exact HC|]. split; [exact HCp|].
  destruct (@laplacian_with_walls_lem (mkgv u b)) as (w & Ew & (G1 & G2 & G3 & G4)); [exact Hu | |].
  { cbn [garray gbc]. intros a Ha. apply homogeneous_walled. apply (H a Ha). }
  exists w. split; [exact Ew|]. cbn [garray gbc] in *. split; [exact G1|]. split; [exact G2|]. split; [exact G3|]. intros ix Hix. rewrite G4 by exact Hix.
  unfold separable. rewrite HL. apply nsum_ext. intros a Ha. destruct (HA a Ha) as (S & _ & V). cbv zeta in V.
  specialize (V ix Hix). rewrite His, Hst in V by exact Ha. pose proof (@inb_nth _ _ a Hix Ha) as Hr.
  specialize (V ltac:(lia)). fold (second_difference b u a ix). rewrite <- V. unfold matrix_along. rewrite S, His by exact Ha. cbn [nth].
  apply rsum_ext. intros j Hj. rewrite Z.sub_0_r, Z.add_0_r. reflexivity.
Qed.

(** The right-hand side after subtracting means. *)
Lemma rhs_transform_spec u b : allpos (shp (gdata u)) ->
  shp (pressure_rhs_transform u b) = shp (gdata u) /\
  forall ix, get (pressure_rhs_transform u b) ix = (get (gdata u) ix -
     (if existsb (fun a => isNeu (fst (btype b a)) && isNeu (snd (btype b a))) (seq 0 (gndim (ggrid u))) then amean (gdata u) else 0))%R.
Proof.
  intros Hp. unfold pressure_rhs_transform. pose proof (asize_pos Hp) as Hz.
  set (step := fun d ax => if isNeu (fst (btype b ax)) && isNeu (snd (btype b ax)) then let m := amean d in amap (fun x => x - m)%R d else d).
  assert (Hgen : forall l d c, shp d = shp (gdata u) -> (forall ix, get d ix = (get (gdata u) ix - c)%R) -> (c = 0 \/ c = amean (gdata u))%R ->
     shp (fold_left step l d) = shp (gdata u) /\ forall ix, get (fold_left step l d) ix = (get (gdata u) ix - (if existsb (fun a => isNeu (fst (btype b a)) && isNeu (snd (btype b a))) l then amean (gdata u) else c))%R).
  { induction l as [|a l IH]; intros d c Sd Gd Hc; cbn [fold_left existsb]; [auto|]. unfold step at 2 4.
    destruct (isNeu (fst (btype b a)) && isNeu (snd (btype b a))) eqn:E; cbn [orb].
    - assert (Em : amean d = (amean (gdata u) - c)%R).
      { unfold amean, total. rewrite Sd. rewrite (@asum_ext _ (get d) (fun ix => get (gdata u) ix - c)%R) by (intros; apply Gd). rewrite asum_minus, asum_const. field. lra. }
      destruct (IH (let m := amean d in amap (fun x => x - m)%R d) (amean (gdata u))) as (A & B).
      + exact Sd.
      + intros ix. cbn [amap get]. rewrite Gd, Em. ring.
      + right; reflexivity.
      + split; [exact A|]. intros ix. rewrite B. destruct (existsb _ l); reflexivity.
    - apply IH; auto. }
  apply (Hgen (seq 0 (gndim (ggrid u))) (gdata u) 0%R); [reflexivity | intros; ring | left; reflexivity].
Qed.

Section Solve.
Variables (tpu : bool) (eigh : arr R -> arr R * arr R) (cutoff : R) (imp : option impl) (g : grid) (per : nat -> bool) (v : list gvar) (pb : bcs) (Ls : list (arr R)).
Hypothesis (Hd : (0 < gndim g)%nat) (Hw : wfg g) (Hv : box_velocity g per v) (H3 : forall a, (a < gndim g)%nat -> (3 <= nth a (gshape g) 0)%nat).
Hypothesis (Epb : pressure_bc_from_velocity v = Ok pb) (EL : laplacian_matrix_w_boundaries g (repeat (1 # 2)%Q (gndim g)) pb = Ok Ls).
Hypothesis (Hr : implementation_ready eigh Ls (forallb per (seq 0 (gndim g))) imp).
Hypothesis (Hcut0 : (0 <= cutoff)%R) (Hcut : forall a, (a < gndim g)%nat -> (cutoff * (INR (nth a (gshape g) 0%nat) * hstep g a) ^ 2 < 2)%R).
Lemma box_all_periodic : has_all_periodic v = forallb per (seq 0 (gndim g)).
Proof.
  destruct Hv as (HL & HF). unfold has_all_periodic.
  assert (Hone : forall c, In c v -> forallb (is_periodic_bc c) (seq 0 (gndim (ggrid (garray c)))) = forallb per (seq 0 (gndim g))).
  { intros c Hc. apply In_nth_error in Hc. destruct Hc as (i & Hc). destruct (HF i c Hc) as (_ & Hg & _ & _ & E & _). rewrite Hg.
    assert (Hp : forall a, In a (seq 0 (gndim g)) -> is_periodic_bc c a = per a).
    { intros a Ha. apply in_seq in Ha. specialize (E a ltac:(lia)). unfold is_periodic_bc, btype. destruct (per a).
      - rewrite (nth_error_nth _ _ _ E). reflexivity.
      - destruct E as (t1 & t2 & E & Hne). rewrite (nth_error_nth _ _ _ E). destruct t1; try reflexivity. congruence. }
    clear -Hp. induction (seq 0 (gndim g)) as [|a l IH]; [reflexivity|]. cbn [forallb]. rewrite Hp by (left; reflexivity). rewrite IH by (intros; apply Hp; right; assumption). reflexivity. }
  destruct (forallb per (seq 0 (gndim g))) eqn:E.
  - apply forallb_forall. exact Hone.
  - destruct v as [|c w]; [cbn in HL; lia|]. cbn [forallb]. rewrite Hone by (left; reflexivity). reflexivity.
Qed.
Lemma solve_poisson : exists dv q lq, divergence v = Ok dv /\ pressure_solve_fast_diag tpu eigh cutoff v (Some pb) imp = Ok q /\
  wf_garr q /\ ggrid q = g /\ off_eq (goff q) (repeat (1 # 2)%Q (gndim g)) /\ laplacian (mkgv q pb) = Ok lq /\
  is_field dv g (repeat (1 # 2)%Q (gndim g)) (get (gdata dv)) /\
  forall ix, inb (gshape g) ix -> get (gdata lq) ix = (get (gdata dv) ix - amean (gdata dv))%R.
Proof.
  destruct (box_div Hd Hv) as (dv & Ed & (D1 & D2 & D3 & D4)).
  pose proof Epb as Epb'. rewrite (pressure_bc_box Hd Hv) in Epb'. injection Epb' as Epb'.
  pose proof Hw as (Hw1 & Hw2 & Hpos & Hw4).
  assert (Hax : forall q, ggrid q = g -> off_eq (goff q) (cell_center g) -> wf_garr q ->
     forall a, (a < gndim (ggrid q))%nat -> homogeneous_axis pb q a /\ edge_side pb (goff q) a = None /\ (3 <= nth a (gshape (ggrid q)) 0)%nat).
  { intros q Hq Ho Hwq a Ha. rewrite Hq in Ha |- *.
    assert (Hcen : centred q a). { unfold centred. rewrite (off_eq_nth a Ho). unfold cell_center. rewrite nth_repeat' by auto. reflexivity. }
    split; [|split; [apply edge_not_half; exact Hcen | apply H3; exact Ha]].
    destruct (per a) eqn:Ep.
    - left. unfold periodic_axis. rewrite <- Epb', pb_type by exact Ha. rewrite Ep. reflexivity.
    - right; left. split; [exact Hcen|]. exists Neumann, Neumann. unfold lower_wall, upper_wall. rewrite <- Epb', pb_type, pb_val, Ep by exact Ha.
      split; [eauto|]. split; [eauto|]. auto. }
  assert (Hwf : forall d, shp d = gshape g -> wf_garr (mkga d (goff dv) (ggrid dv))).
  { intros d Sd. split; [cbn; rewrite D1; exact Hw|]. split; [cbn; rewrite D1; exact Sd|]. cbn. rewrite (off_eq_length D2), D1. apply cell_center_length. }
  assert (Hplain : forall d, shp d = gshape g -> sizes Ls = gshape g /\ length Ls = gndim g /\ Forall dissip Ls /\
     (forallb per (seq 0 (gndim g)) = true -> Forall circulant Ls) /\
     (forall a, (a < gndim g)%nat -> coupled (hstep g a) (nth a Ls (afull [] 0%R))) /\
     exists w, laplacian (mkgv (mkga d (goff dv) (ggrid dv)) pb) = Ok w /\ is_field w g (goff dv) (separable Ls (get d))).
  { intros d Sd. destruct (@lap_matrices_plain (mkga d (goff dv) (ggrid dv)) pb (Hwf d Sd) (Hax (mkga d (goff dv) (ggrid dv)) D1 D2 (Hwf d Sd))) as (Ls' & EL' & HL' & HS' & HD' & HC' & HP' & w & Ew & Hww).
    cbn [ggrid goff gdata] in *. rewrite D1 in EL', HL', HS', HC', HP', Hww. rewrite (@lap_matrices_off g _ _ pb D2) in EL'. pose proof EL as EL2. fold (cell_center g) in EL2. rewrite EL2 in EL'. injection EL' as <-.
    split; [exact HS'|]. split; [exact HL'|]. split; [exact HD'|]. split.
    - intros Hp. apply HC'. intros a Ha. unfold periodic_axis. rewrite <- Epb', pb_type by exact Ha. rewrite forallb_forall in Hp. rewrite (Hp a) by (apply in_seq; lia). reflexivity.
    - split; [exact HP'|]. exists w. split; [exact Ew | exact Hww]. }
  destruct (Hplain (gdata dv) D3) as (HS & HLL & HD & HC & HP & _).
  assert (Hone : forall ix, inb (sizes Ls) ix -> separable Ls (fun _ => 1%R) ix = 0%R).
  { rewrite HS. intros ix Hix. set (u1 := mkga (afull (gshape g) 1%R) (goff dv) (ggrid dv)).
    destruct (Hplain (afull (gshape g) 1%R) eq_refl) as (_ & _ & _ & _ & _ & w & Ew & (_ & _ & _ & W4)).
    change (fun _ : list Z => 1%R) with (get (afull (gshape g) 1%R)). rewrite <- W4 by exact Hix.
    destruct (@lap_wall (mkgv u1 pb)) as (w' & Ew' & (_ & _ & _ & V')).
    { exact (Hwf (afull (gshape g) 1%R) eq_refl). }
    { cbn [garray gbc]. unfold u1. cbn [ggrid]. rewrite D1. intros a Ha. rewrite <- Epb'. apply pb_walled; auto. }
    fold u1 in Ew. rewrite Ew in Ew'. injection Ew' as <-. cbn [garray] in V'. unfold u1 in V' at 1. cbn [ggrid] in V'. rewrite D1 in V'. rewrite V' by exact Hix.
    unfold lapW. cbn [garray gbc]. apply nsum_zero. intros a Ha. unfold u1 in Ha. cbn [ggrid] in Ha. rewrite D1 in Ha.
    rewrite <- Epb', !(@pb_nbr g per u1 a) by auto. unfold at_. cbn [garray u1 gdata get afull]. destruct (per a); [unfold Rdiv; ring|]. destruct (_ || _); destruct (_ || _); unfold Rdiv; ring. }
  assert (Heig : forall x, eigenvalue_of Ls x -> (x = 0 \/ cutoff < Rabs x)%R).
  { intros x Hx. apply (@spectral_gap Ls (hstep g) cutoff x HD); auto; rewrite HLL.
    - intros a Ha. split; [apply HP; exact Ha | apply (@hstep_nz g Hw a Ha)].
    - rewrite HS. exact Hcut. }
  assert (Hne : Ls <> []) by (intros ->; cbn in HLL; lia).
  assert (Hsym : Forall symmetric Ls) by (eapply Forall_impl; [|exact HD]; intros A; apply dissip_symmetric).
  destruct (@transform_selected tpu eigh (pinv_fun cutoff) Ls (forallb per (seq 0 (gndim g))) imp Hne Hsym HC Hr) as (i & Hus & Etr).
  destruct (@transform_calc tpu eigh (pinv_fun cutoff) Ls i Hne Hus (pinv_real Hcut0)) as (F & sp & FF & EF & HK & HF).
  assert (HpR : allpos (shp (gdata dv))) by (rewrite D3; exact Hpos).
  destruct (@rhs_transform_spec dv pb HpR) as (SR & GR).
  destruct (HF (pressure_rhs_transform dv pb)) as (x & Ex & Sx & Vx); [rewrite SR, D3, HS; reflexivity|].
  assert (Hmean : forall ix, get (pressure_rhs_transform dv pb) ix = (get (gdata dv) ix - amean (gdata dv))%R).
  { intros ix. rewrite GR. destruct (existsb _ _) eqn:Ee; [reflexivity|].
    assert (Hall : forall a, (a < gndim g)%nat -> per a = true).
    { intros a Ha. destruct (per a) eqn:Ep; [reflexivity|]. exfalso.
      assert (Hx : existsb (fun a => isNeu (fst (btype pb a)) && isNeu (snd (btype pb a))) (seq 0 (gndim (ggrid dv))) = true).
      { apply existsb_exists. exists a. rewrite D1. split; [apply in_seq; lia|]. unfold btype. rewrite <- Epb', (nth_error_nth _ _ _ (@pb_type g per a Ha)), Ep. reflexivity. }
      congruence. }
    destruct (@box_divergence_total_lem g per v Hd Hw Hv) as (dv' & Ed' & _ & Ht).
    { intros i' u lo hi Hp Hi'. exfalso. rewrite Hall in Hp; [discriminate|]. destruct Hv as (HL & _). rewrite <- HL. apply nth_error_Some. congruence. }
    rewrite Ed in Ed'. injection Ed' as <-. unfold amean. rewrite Ht. unfold Rdiv. ring. }
  assert (Hzero : asum (sizes Ls) (get (pressure_rhs_transform dv pb)) = 0%R).
  { rewrite HS. rewrite (@asum_ext _ _ (fun ix => get (gdata dv) ix - amean (gdata dv))%R) by (intros; apply Hmean). rewrite asum_minus, asum_const. unfold amean, total. rewrite D3.
    pose proof (asize_pos Hpos). field. lra. }
  exists dv, (mkga x (goff dv) (ggrid dv)).
  rewrite HS in Sx. destruct (Hplain x Sx) as (_ & _ & _ & _ & _ & lq & Elq & (Q1 & Q2 & Q3 & Q4)).
  exists lq. split; [exact Ed|]. split.
  { unfold pressure_solve_fast_diag. cbn [bind]. rewrite box_all_periodic, Ed. cbn [bind]. rewrite D1, (@lap_matrices_off g _ _ pb D2). fold (cell_center g) in EL. rewrite EL. cbn [bind].
    unfold pseudoinverse. rewrite Etr, EF. cbn [bind]. rewrite Ex. reflexivity. }
  split; [apply Hwf; exact Sx|]. split; [exact D1|]. split; [exact D2|]. split; [exact Elq|].
  split; [split; [exact D1 | split; [exact D2 | split; [exact D3 | reflexivity]]]|].
  intros ix Hix. rewrite Q4 by exact Hix. rewrite <- Hmean.
  rewrite <- HS in Hix. rewrite (@separable_ext Ls _ (FF (onR (pinv_fun cutoff)) (get (pressure_rhs_transform dv pb))) ix Vx Hix).
  apply (@fcalc_pinv Ls sp FF cutoff (get (pressure_rhs_transform dv pb)) HK Hsym Hcut0 Heig); [|exact Hix].
  intros w Hker. destruct (@sep_kernel Ls w HD Hker) as (c & Hc). unfold inner.
  rewrite (@asum_ext _ _ (fun ix => c * get (pressure_rhs_transform dv pb) ix)%R) by (intros jx Hj; rewrite (Hc jx Hj); reflexivity).
  rewrite asum_scal, Hzero. ring.
Qed.
End Solve.

(* @prop C56 solve_fast_diag returns the pressure correction: for every velocity in a box with periodic axes or walls (any dimension, at least 3 cells per axis), every implementation that is usable and every cutoff with cutoff * (axis length)^2 < 2, the laplacian of its result under the inferred pressure conditions is the divergence of the velocity minus its mean. *)
Lemma fast_diag_pressure_solves_poisson_lem : forall tpu eigh cutoff imp g per v pb Ls,
  (0 < gndim g)%nat -> wfg g -> box_velocity g per v ->
  (forall a, (a < gndim g)%nat -> (3 <= nth a (gshape g) 0)%nat /\ (cutoff * (INR (nth a (gshape g) 0%nat) * hstep g a) ^ 2 < 2)%R) ->
  (0 <= cutoff)%R -> pressure_bc_from_velocity v = Ok pb ->
  laplacian_matrix_w_boundaries g (repeat (1 # 2)%Q (gndim g)) pb = Ok Ls ->
  implementation_ready eigh Ls (forallb per (seq 0 (gndim g))) imp ->
  exists dv q lq, divergence v = Ok dv /\
    pressure_solve_fast_diag tpu eigh cutoff v (Some pb) imp = Ok q /\ pressure_solve_fast_diag tpu eigh cutoff v None imp = Ok q /\
    wf_garr q /\ ggrid q = g /\ off_eq (goff q) (repeat (1 # 2)%Q (gndim g)) /\ laplacian (mkgv q pb) = Ok lq /\
    forall ix, inb (gshape g) ix -> get (gdata lq) ix = (get (gdata dv) ix - total (gdata dv) / INR (asize (gshape g)))%R.
Proof.
  intros tpu eigh cutoff imp g per v pb Ls Hd Hw Hv H3 Hc Epb EL Hr.
  destruct (@solve_poisson tpu eigh cutoff imp g per v pb Ls Hd Hw Hv) as (dv & q & lq & E1 & E2 & Q1 & Q2 & Q3 & E3 & (_ & _ & S & _) & V); auto; try (intros a Ha; apply (H3 a Ha)).
  exists dv, q, lq. split; [exact E1|]. split; [exact E2|]. split; [unfold pressure_solve_fast_diag in *; rewrite Epb; cbn [bind] in *; exact E2|].
  split; [exact Q1|]. split; [exact Q2|]. split; [exact Q3|]. split; [exact E3|]. intros ix Hix. rewrite V by exact Hix. unfold amean. rewrite S. reflexivity.
Qed.
(** Three cells between two walls. *)
Definition w3g : grid := mkgrid [3%nat] [1%R] [(0%R, 3%R)].
Definition w3b : bcs := homogeneous [(Dirichlet, Dirichlet)].
Definition w3pb : bcs := homogeneous [(Neumann, Neumann)].
Definition w3v : list gvar := [mkgv (mkga (mkarr [3%nat] (fun ix => if nth 0 ix 0 =? 0 then 1%R else if nth 0 ix 0 =? 1 then 5%R else 0%R)) [1%Q] w3g) w3b].
Definition w3L : arr R := lap_boundary 1 1 true (lap_boundary 1 1 false (mkarr [3%nat; 3%nat] (fun ix => lap_column 3 1 ((nth 0 ix 0 - nth 1 ix 0) mod 3)))).
Definition w3eigh (_ : arr R) : arr R * arr R :=
  (mkarr [3%nat] (fun kx => if nth 0 kx 0 =? 0 then 0%R else if nth 0 kx 0 =? 1 then (-1)%R else (-3)%R),
   mkarr [3%nat; 3%nat] (fun ix => let i := nth 0 ix 0 in
     if nth 1 ix 0 =? 0 then (sqrt (/ 3))%R
     else if nth 1 ix 0 =? 1 then (if i =? 0 then sqrt (/ 2) else if i =? 1 then 0 else - sqrt (/ 2))%R
     else (if i =? 1 then - 2 * sqrt (/ 6) else sqrt (/ 6))%R)).
Lemma w3g_wf : wfg w3g. Proof. repeat split; repeat constructor; (lia || lra). Qed.
Lemma w3v_box : box_velocity w3g (fun _ => false) w3v.
Proof.
  split; [reflexivity|]. intros [|[|i]] u H; simpl in H; try discriminate; injection H as <-.
  split; [repeat split; repeat constructor; (lia || lra)|]. split; [reflexivity|]. split; [repeat constructor|]. split; [reflexivity|]. split.
  - intros [|a] Ha; cbn; [exists Dirichlet, Dirichlet; split; [reflexivity | discriminate] | unfold gndim in Ha; simpl in Ha; lia].
  - intros _. exists 0%R. split; [reflexivity|]. intros ix _ H. cbn [garray gdata get]. rewrite H. reflexivity.
Qed.
Lemma w3L_eq : laplacian_matrix_w_boundaries w3g [(1 # 2)%Q] w3pb = Ok [w3L].
Proof. reflexivity. Qed.
Lemma lt3 i : 0 <= i < Z.of_nat 3 -> i = 0 \/ i = 1 \/ i = 2. Proof. lia. Qed.
Lemma w3L_eig : eigen_decomposition w3L (w3eigh w3L).
Proof.
  pose proof (sqrt_sqrt (/ 3) ltac:(lra)) as H3. pose proof (sqrt_sqrt (/ 2) ltac:(lra)) as H2. pose proof (sqrt_sqrt (/ 6) ltac:(lra)) as H6.
  exists 3%nat. split; [reflexivity|]. split; [reflexivity|]. split; [reflexivity|].
  unfold w3eigh. cbn [fst snd]. set (a := sqrt (/ 3)) in *. set (b := sqrt (/ 2)) in *. set (c := sqrt (/ 6)) in *.
  split; [|split]; intros i k Hi Hk; destruct (lt3 Hi) as [-> | [-> | ->]]; destruct (lt3 Hk) as [-> | [-> | ->]]; cbn; lra.
Qed.
(* @ex *)
Lemma fast_diag_pressure_solves_poisson_ex_lem : exists Ls,
  (0 < gndim w3g)%nat /\ wfg w3g /\ box_velocity w3g (fun _ => false) w3v /\
  (forall a, (a < gndim w3g)%nat -> (3 <= nth a (gshape w3g) 0)%nat /\ (1 / 1000 * (INR (nth a (gshape w3g) 0%nat) * hstep w3g a) ^ 2 < 2)%R) /\
  pressure_bc_from_velocity w3v = Ok w3pb /\
  laplacian_matrix_w_boundaries w3g (repeat (1 # 2)%Q (gndim w3g)) w3pb = Ok Ls /\
  implementation_ready w3eigh Ls (forallb (fun _ => false) (seq 0 (gndim w3g))) None.
Proof.
  exists [w3L]. split; [unfold gndim; cbn; lia|]. split; [apply w3g_wf|]. split; [apply w3v_box|]. split.
  { intros [|a] Ha; [|unfold gndim in Ha; simpl in Ha; lia]. split; [cbn; lia | unfold hstep; cbn; lra]. }
  split; [reflexivity|]. split; [apply w3L_eq|]. constructor; [apply w3L_eig | constructor].
Qed.

(* @prop C56 Projection with solve_fast_diag succeeds in every such box; the projected velocity keeps grid, offsets, boundary conditions and wall values, and its divergence is the same constant (the mean of the divergence of v) in every cell; it is zero in every cell when the wall values of each normal component balance (in particular without walls or with impermeable ones). *)
Lemma projection_with_fast_diag_lem : forall tpu eigh cutoff imp g per v pb Ls,
  (0 < gndim g)%nat -> wfg g -> box_velocity g per v ->
  (forall a, (a < gndim g)%nat -> (3 <= nth a (gshape g) 0)%nat /\ (cutoff * (INR (nth a (gshape g) 0%nat) * hstep g a) ^ 2 < 2)%R) ->
  (0 <= cutoff)%R -> pressure_bc_from_velocity v = Ok pb ->
  laplacian_matrix_w_boundaries g (repeat (1 # 2)%Q (gndim g)) pb = Ok Ls ->
  implementation_ready eigh Ls (forallb per (seq 0 (gndim g))) imp ->
  exists dv v' w, divergence v = Ok dv /\
    projection (fun v _ b => pressure_solve_fast_diag tpu eigh cutoff v (Some b) imp) v = Ok v' /\ box_velocity g per v' /\ map gbc v' = map gbc v /\
    divergence v' = Ok w /\
    (forall ix, inb (gshape g) ix -> get (gdata w) ix = (total (gdata dv) / INR (asize (gshape g)))%R) /\
    ((forall i u lo hi, per i = false -> nth_error v i = Some u -> nth_error (bvals (gbc u)) i = Some (Some lo, Some hi) -> lo = hi) ->
     forall ix, inb (gshape g) ix -> get (gdata w) ix = 0%R).
Proof.
  intros tpu eigh cutoff imp g per v pb Ls Hd Hw Hv H3 Hc Epb EL Hr.
  destruct (@fast_diag_pressure_solves_poisson_lem tpu eigh cutoff imp g per v pb Ls Hd Hw Hv H3 Hc Epb EL Hr) as (dv & q & lq & E1 & E2 & _ & Q1 & Q2 & Q3 & E3 & V).
  destruct (@projection_box_gen g per v (fun v _ b => pressure_solve_fast_diag tpu eigh cutoff v (Some b) imp) q pb dv lq) as (v' & E & Hb & Hm & _ & w & Ew & Vw); auto.
  assert (Hdiv : forall ix, inb (gshape g) ix -> get (gdata w) ix = (total (gdata dv) / INR (asize (gshape g)))%R) by (intros ix Hix; rewrite Vw, V by exact Hix; ring).
  exists dv, v', w. split; [exact E1|]. split; [exact E|]. split; [exact Hb|]. split; [exact Hm|]. split; [exact Ew|]. split; [exact Hdiv|].
  intros Hbal ix Hix. rewrite Hdiv by exact Hix. destruct (@box_divergence_total_lem g per v Hd Hw Hv Hbal) as (dv' & Ed' & _ & Ht). rewrite E1 in Ed'. injection Ed' as <-.
  rewrite Ht. unfold Rdiv. ring.
Qed.
(** A periodic 3 x 4 example. *)
Definition p34g : grid := mkgrid [3%nat; 4%nat] [1%R; (1 / 2)%R] [(0%R, 3%R); (0%R, 2%R)].
Definition p34v : list gvar :=
  [mkgv (mkga (mkarr [3%nat; 4%nat] (fun ix => if nth 0 ix 0 =? 0 then 1%R else 0%R)) [1%Q; (1 # 2)%Q] p34g) (periodic_bc 2);
   mkgv (mkga (mkarr [3%nat; 4%nat] (fun ix => if nth 1 ix 0 =? 2 then 3%R else 0%R)) [(1 # 2)%Q; 1%Q] p34g) (periodic_bc 2)].
Lemma p34_box : box_velocity p34g (fun _ => true) p34v.
Proof.
  split; [reflexivity|]. intros [|[|[|i]]] u H; simpl in H; try discriminate; injection H as <-;
    (split; [repeat split; repeat constructor; (lia || lra)|]; split; [reflexivity|]; split; [repeat constructor|]; split; [reflexivity|]; split; [|discriminate]);
    intros [|[|a]] Ha; cbn; try reflexivity; unfold gndim in Ha; simpl in Ha; lia.
Qed.
Lemma p34_ready eigh : exists pb Ls,
  (0 < gndim p34g)%nat /\ wfg p34g /\ box_velocity p34g (fun _ => true) p34v /\
  (forall a, (a < gndim p34g)%nat -> (3 <= nth a (gshape p34g) 0)%nat /\ (1 / 1000 * (INR (nth a (gshape p34g) 0%nat) * hstep p34g a) ^ 2 < 2)%R) /\
  pressure_bc_from_velocity p34v = Ok pb /\
  laplacian_matrix_w_boundaries p34g (repeat (1 # 2)%Q (gndim p34g)) pb = Ok Ls /\
  implementation_ready eigh Ls (forallb (fun _ => true) (seq 0 (gndim p34g))) (Some Rfft) /\
  implementation_ready eigh Ls (forallb (fun _ => true) (seq 0 (gndim p34g))) (Some Fft).
Proof.
  exists (homogeneous [(Periodic, Periodic); (Periodic, Periodic)]), [mkarr [3%nat; 3%nat] (fun ix => lap_column 3 1 ((nth 0 ix 0 - nth 1 ix 0) mod 3)); mkarr [4%nat; 4%nat] (fun ix => lap_column 4 (1 / 2) ((nth 0 ix 0 - nth 1 ix 0) mod 4))].
  split; [unfold gndim; cbn; lia|]. split; [repeat split; repeat constructor; (lia || lra)|]. split; [apply p34_box|]. split.
  { intros [|[|a]] Ha; [| |unfold gndim in Ha; simpl in Ha; lia]; (split; [cbn; lia | unfold hstep; cbn; lra]). }
  split; [reflexivity|]. split; [reflexivity|]. split; [|exact I].
  intros l A E. match type of E with [?a; ?b] = _ => change ([a] ++ [b] = l ++ [A]) in E end. apply app_inj_tail in E. destruct E as (_ & <-). reflexivity.
Qed.
(* @ex *)
Lemma projection_with_fast_diag_ex_lem : forall eigh, exists pb Ls,
  (0 < gndim p34g)%nat /\ wfg p34g /\ box_velocity p34g (fun _ => true) p34v /\
  (forall a, (a < gndim p34g)%nat -> (3 <= nth a (gshape p34g) 0)%nat /\ (1 / 1000 * (INR (nth a (gshape p34g) 0%nat) * hstep p34g a) ^ 2 < 2)%R) /\
  pressure_bc_from_velocity p34v = Ok pb /\
  laplacian_matrix_w_boundaries p34g (repeat (1 # 2)%Q (gndim p34g)) pb = Ok Ls /\
  implementation_ready eigh Ls (forallb (fun _ => true) (seq 0 (gndim p34g))) (Some Rfft) /\
  implementation_ready eigh Ls (forallb (fun _ => true) (seq 0 (gndim p34g))) (Some Fft).
Proof. exact p34_ready. Qed.

(* @prop C57 With solve_fast_diag as solver and balanced wall values, projecting an already projected velocity changes nothing: projection is idempotent. *)
Lemma fast_diag_projection_idempotent_lem : forall tpu eigh cutoff imp g per v pb Ls,
  (0 < gndim g)%nat -> wfg g -> box_velocity g per v ->
  (forall a, (a < gndim g)%nat -> (3 <= nth a (gshape g) 0)%nat /\ (cutoff * (INR (nth a (gshape g) 0%nat) * hstep g a) ^ 2 < 2)%R) ->
  (0 <= cutoff)%R -> pressure_bc_from_velocity v = Ok pb ->
  laplacian_matrix_w_boundaries g (repeat (1 # 2)%Q (gndim g)) pb = Ok Ls ->
  implementation_ready eigh Ls (forallb per (seq 0 (gndim g))) imp ->
  (forall i u lo hi, per i = false -> nth_error v i = Some u -> nth_error (bvals (gbc u)) i = Some (Some lo, Some hi) -> lo = hi) ->
  let solve := fun v (_ : gvar) b => pressure_solve_fast_diag tpu eigh cutoff v (Some b) imp in
  exists v' v'', projection solve v = Ok v' /\ projection solve v' = Ok v'' /\
    Forall2 (fun u u' => same_field (garray u') (garray u) /\ gbc u' = gbc u) v' v''.
Proof.
  intros tpu eigh cutoff imp g per v pb Ls Hd Hw Hv H3 Hc Epb EL Hr Hbal solve.
  destruct (@projection_with_fast_diag_lem tpu eigh cutoff imp g per v pb Ls Hd Hw Hv H3 Hc Epb EL Hr) as (dv & v' & w & E1 & E2 & Hb & Hm & Ew & _ & Hz).
  specialize (Hz Hbal).
  assert (Epb' : pressure_bc_from_velocity v' = Ok pb) by (rewrite (pressure_bc_box Hd Hb), <- (pressure_bc_box Hd Hv); exact Epb).
  destruct (@fast_diag_pressure_solves_poisson_lem tpu eigh cutoff imp g per v' pb Ls Hd Hw Hb H3 Hc Epb' EL Hr) as (dv' & q & lq & F1 & F2 & _ & Q1 & Q2 & Q3 & F3 & V).
  rewrite Ew in F1. injection F1 as <-.
  destruct (@projection_fixes_divergence_free_lem g per v' solve q pb w lq) as (v'' & E' & HF); auto.
  - intros ix Hix. rewrite V by exact Hix.
    destruct (@box_div g per v' Hd Hb) as (w' & Ew' & (_ & _ & Sw & _)). rewrite Ew in Ew'. injection Ew' as <-.
    replace (total (gdata w)) with 0%R; [unfold Rdiv; ring|]. unfold total. rewrite Sw. rewrite (@asum_ext _ _ (fun _ => 0%R)); [rewrite asum_0; reflexivity|]. intros; apply Hz; assumption.
  - exists v', v''. auto.
Qed.
(* @ex *)
Lemma fast_diag_projection_idempotent_ex_lem : forall eigh, exists pb Ls,
  (0 < gndim p34g)%nat /\ wfg p34g /\ box_velocity p34g (fun _ => true) p34v /\
  (forall a, (a < gndim p34g)%nat -> (3 <= nth a (gshape p34g) 0)%nat /\ (1 / 1000 * (INR (nth a (gshape p34g) 0%nat) * hstep p34g a) ^ 2 < 2)%R) /\
  pressure_bc_from_velocity p34v = Ok pb /\
  laplacian_matrix_w_boundaries p34g (repeat (1 # 2)%Q (gndim p34g)) pb = Ok Ls /\
  implementation_ready eigh Ls (forallb (fun _ => true) (seq 0 (gndim p34g))) (Some Rfft).
Proof. intros eigh. destruct (p34_ready eigh) as (pb & Ls & A & B & C & D & E & F & G & _). exists pb, Ls. auto 10. Qed.

(* @prop C56 solve_fast_diag_channel_flow returns what solve_fast_diag returns with the matmul implementation, with the pressure boundary conditions given or inferred from the velocity. *)
Lemma channel_flow_solver_is_matmul_lem : forall tpu eigh cutoff v pb, pressure_bc_from_velocity v = Ok pb ->
  solve_fast_diag_channel_flow tpu eigh cutoff v None = pressure_solve_fast_diag tpu eigh cutoff v None (Some Matmul) /\
  solve_fast_diag_channel_flow tpu eigh cutoff v (Some pb) = pressure_solve_fast_diag tpu eigh cutoff v None (Some Matmul).
Proof. intros tpu eigh cutoff v pb E. unfold solve_fast_diag_channel_flow, pressure_solve_fast_diag. rewrite E. cbn [bind]. auto. Qed.
(* @ex *)
Lemma channel_flow_solver_is_matmul_ex_lem : pressure_bc_from_velocity w3v = Ok w3pb.
Proof. reflexivity. Qed.

(* @prop C57 The pressure correction is unique up to a constant: two cell-centred fields with the same laplacian under pressure boundary conditions (periodic or zero-Neumann axes) differ by a constant. *)
Lemma pressure_unique_up_to_constant_lem : forall g per v pb q1 q2 l1 l2,
  (0 < gndim g)%nat -> wfg g -> box_velocity g per v -> pressure_bc_from_velocity v = Ok pb ->
  wf_garr q1 -> ggrid q1 = g -> off_eq (goff q1) (repeat (1 # 2)%Q (gndim g)) ->
  wf_garr q2 -> ggrid q2 = g -> off_eq (goff q2) (repeat (1 # 2)%Q (gndim g)) ->
  laplacian (mkgv q1 pb) = Ok l1 -> laplacian (mkgv q2 pb) = Ok l2 ->
  (forall ix, inb (gshape g) ix -> get (gdata l1) ix = get (gdata l2) ix) ->
  exists c, forall ix, inb (gshape g) ix -> get (gdata q1) ix = (get (gdata q2) ix + c)%R.
Proof.
  intros g per v pb q1 q2 l1 l2 Hd Hw Hv Epb W1 G1 O1 W2 G2 O2 E1 E2 Heq. fold (cell_center g) in O1, O2.
  assert (Epb' : pb = homogeneous (map (fun a => if per a then (Periodic, Periodic) else (Neumann, Neumann)) (seq 0 (gndim g)))).
  { rewrite (pressure_bc_box Hd Hv) in Epb. injection Epb as <-. reflexivity. }
  set (q := mkga (amap2 Rminus (gdata q1) (gdata q2)) (goff q1) g).
  assert (Wq : wf_garr q). { split; [exact Hw|]. split; [cbn; rewrite <- G1; apply W1 | cbn; rewrite <- G1; apply W1]. }
  assert (Lap : forall r l, wf_garr r -> ggrid r = g -> off_eq (goff r) (cell_center g) -> laplacian (mkgv r pb) = Ok l -> forall ix, inb (gshape g) ix -> get (gdata l) ix = lapW (mkgv r pb) ix).
  { intros r l Wr Gr Or El ix Hix. destruct (@lap_wall (mkgv r pb)) as (l' & El' & (_ & _ & _ & V)); cbn [garray gbc] in *; auto.
    { rewrite Gr. intros a Ha. rewrite Epb'. apply pb_walled; auto. }
    rewrite El in El'. injection El' as <-. rewrite Gr in V. auto. }
  assert (Hl : forall ix, inb (gshape g) ix -> lapW (mkgv q pb) ix = 0%R).
  { intros ix Hix. transitivity (lapW (mkgv q1 pb) ix - lapW (mkgv q2 pb) ix)%R.
    - unfold lapW. cbn [garray gbc]. rewrite G1, G2. cbn [q ggrid]. rewrite <- nsum_minus. apply nsum_ext. intros a Ha. unfold at_. cbn [garray].
      rewrite Epb', !(@pb_nbr g per q a), !(@pb_nbr g per q1 a), !(@pb_nbr g per q2 a) by auto. cbv zeta. cbn [q gdata amap2 get].
      destruct (per a); [unfold Rdiv; ring|]. destruct (_ || _); destruct (_ || _); unfold Rdiv; ring.
    - rewrite <- (Lap q1 l1), <- (Lap q2 l2) by auto. rewrite Heq by exact Hix. ring. }
  pose proof (@grad_zero g per q Hw eq_refl O1) as HG. cbv zeta in HG. rewrite <- Epb' in HG. specialize (HG Hl).
  destruct (@adjacent_constant (gshape g) (get (gdata q))) as (c & Hcc); [apply Hw| |].
  { intros ix a Hix Ha Hn. specialize (HG a ix Ha Hix). pose proof (@hstep_nz g Hw a Ha) as Hh. pose proof (@inb_nth _ _ a Hix Ha) as Hr.
    assert (E0 : (nbr pb q a 1 ix - get (gdata q) ix)%R = 0%R).
    { apply Rmult_eq_reg_r with (r := (/ hstep g a)%R); [rewrite Rmult_0_l; exact HG | apply Rinv_neq_0_compat; exact Hh]. }
    rewrite Epb', (@pb_nbr g per q a 1 ix) in E0 by auto. cbv zeta in E0.
    replace (nth a ix 0 + 1 <? 0) with false in E0 by (symmetry; apply Z.ltb_ge; lia).
    replace (Z.of_nat (nth a (gshape g) 0%nat) <=? nth a ix 0 + 1) with false in E0 by (symmetry; apply Z.leb_gt; exact Hn). cbn [orb] in E0.
    rewrite Z.mod_small in E0 by lia. destruct (per a); lra. }
  exists c. intros ix Hix. specialize (Hcc ix Hix). cbn [q gdata amap2 get] in Hcc. lra.
Qed.
(* @ex *)
Lemma pressure_unique_up_to_constant_ex_lem :
  (0 < gndim prg)%nat /\ wfg prg /\ box_velocity prg chper chv /\ pressure_bc_from_velocity chv = Ok chpb /\
  wf_garr chq /\ off_eq (goff chq) (repeat (1 # 2)%Q (gndim prg)) /\ exists l, laplacian (mkgv chq chpb) = Ok l.
Proof.
  destruct projection_in_box_ex_lem as (A & B & C & D & E & F & dv & lq & _ & H & _). split; [exact A|]. split; [exact B|]. split; [exact C|]. split; [exact D|]. split; [exact E|]. split; [exact F|].
  exists lq. exact H.
Qed.

(* @prop C56 solve_cg: if the conjugate-gradient routine returns a cell-centred field that solves the linear system it was given (operator applied to the field = right-hand side), then projection with solve_cg gives a velocity with zero divergence in every cell and unchanged boundary conditions. *)
Lemma projection_with_cg_lem : forall cg g per v pb q dv,
  (0 < gndim g)%nat -> wfg g -> box_velocity g per v -> pressure_bc_from_velocity v = Ok pb -> divergence v = Ok dv ->
  wf_garr q -> ggrid q = g -> off_eq (goff q) (repeat (1 # 2)%Q (gndim g)) ->
  (forall A x0, (forall u, A u = (let* r := impose_bc pb u in laplacian r)) -> cg A dv x0 = Ok q /\
     exists y, A q = Ok y /\ forall ix, inb (gshape g) ix -> get (gdata y) ix = get (gdata dv) ix) ->
  exists v' w, projection (fun v q0 b => pressure_solve_cg cg v q0 (Some b)) v = Ok v' /\ box_velocity g per v' /\ map gbc v' = map gbc v /\
    divergence v' = Ok w /\ forall ix, inb (gshape g) ix -> get (gdata w) ix = 0%R.
Proof.
  intros cg g per v pb q dv Hd Hw Hv Epb Ed Hq Hgq Hoq Hcg. fold (cell_center g) in Hoq.
  assert (Epb' : pb = homogeneous (map (fun a => if per a then (Periodic, Periodic) else (Neumann, Neumann)) (seq 0 (gndim g)))).
  { rewrite (pressure_bc_box Hd Hv) in Epb. injection Epb as <-. reflexivity. }
  assert (Hsq : shp (gdata q) = gshape g) by (rewrite <- Hgq; apply Hq).
  destruct (@impose_centred g pb q) as (r & Er & Hgr & Hor & Hsr & Hgetr); auto; [rewrite Epb'; apply pb_len|].
  destruct (Hcg (fun a => let* q := impose_bc pb a in laplacian q) (mkga (afull [] 0%R) [] g) (fun _ => eq_refl)) as (_ & y & Ey & Hy).
  rewrite Er in Ey. cbn [bind] in Ey.
  destruct (@lap_wall (mkgv q pb)) as (lq & El & (_ & _ & _ & Vl)); cbn [garray gbc] in *; auto.
  { rewrite Hgq. intros a Ha. rewrite Epb'. apply pb_walled; auto. }
  destruct (@lap_wall (mkgv r pb)) as (lr & Elr & (_ & _ & _ & Vr)); cbn [garray gbc] in *; auto.
  { split; [rewrite Hgr; exact Hw|]. split; [congruence|]. rewrite (off_eq_length Hor), Hgr. apply cell_center_length. }
  { rewrite Hgr. intros a Ha. rewrite Epb'. apply pb_walled; auto. }
  rewrite Ey in Elr. injection Elr as <-. rewrite Hgq in Vl. rewrite Hgr in Vr.
  destruct (@projection_in_box_lem g per v (fun v q0 b => pressure_solve_cg cg v q0 (Some b)) q pb dv lq) as (v' & E & Hb & Hm & w & Ew & Vw); auto.
  - intros q0. unfold pressure_solve_cg. rewrite Ed. cbn [bind]. apply Hcg. reflexivity.
  - intros ix Hix. rewrite <- Hy by exact Hix. rewrite Vl, Vr by exact Hix. unfold lapW. cbn [garray gbc]. rewrite Hgr, Hgq. apply nsum_ext. intros a Ha. unfold at_. cbn [garray].
    pose proof (@inb_nth _ _ a Hix Ha) as Hrg. assert (Hin : forall j, 0 <= j < Z.of_nat (nth a (gshape g) 0%nat) -> inb (gshape g) (upd a j ix)) by (intros j Hj; apply inb_upd_same; auto).
    rewrite Epb', !(@pb_nbr g per q a), !(@pb_nbr g per r a) by auto. cbv zeta. rewrite (Hgetr ix Hix).
    destruct (per a); [rewrite !Hgetr; [reflexivity | |]; apply Hin; apply Z.mod_pos_bound; lia|].
    destruct (Z.ltb_spec (nth a ix 0 + 1) 0); destruct (Z.leb_spec (Z.of_nat (nth a (gshape g) 0%nat)) (nth a ix 0 + 1)); destruct (Z.ltb_spec (nth a ix 0 + -1) 0); destruct (Z.leb_spec (Z.of_nat (nth a (gshape g) 0%nat)) (nth a ix 0 + -1)); cbn [orb]; try lia;
      rewrite ?(Hgetr (upd a (nth a ix 0 + 1) ix)), ?(Hgetr (upd a (nth a ix 0 + -1) ix)) by (apply Hin; lia); reflexivity.
  - exists v', w. auto 10.
Qed.
(* @ex *)
Lemma projection_with_cg_ex_lem : exists dv,
  (0 < gndim prg)%nat /\ wfg prg /\ box_velocity prg chper chv /\ pressure_bc_from_velocity chv = Ok chpb /\ divergence chv = Ok dv /\
  wf_garr chq /\ off_eq (goff chq) (repeat (1 # 2)%Q (gndim prg)) /\
  forall A (x0 : garr), (forall u, A u = (let* r := impose_bc chpb u in laplacian r)) -> (fun (A : garr -> result garr) (b x0 : garr) => Ok chq) A dv x0 = Ok chq /\
     exists y, A chq = Ok y /\ forall ix, inb (gshape prg) ix -> get (gdata y) ix = get (gdata dv) ix.
Proof.
  destruct projection_in_box_ex_lem as (A & B & C & D & E & F & dv & lq & Ed & El & _ & Heq). exists dv.
  split; [exact A|]. split; [exact B|]. split; [exact C|]. split; [exact D|]. split; [exact Ed|]. split; [exact E|]. split; [exact F|].
  intros L x0 HL. split; [reflexivity|]. exists lq. split; [|exact Heq]. rewrite HL.
  assert (Ei : impose_bc chpb chq = Ok (mkgv chq chpb)) by reflexivity. rewrite Ei. exact El.
Qed.
