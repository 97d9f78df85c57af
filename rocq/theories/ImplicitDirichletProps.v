(** * Property C22: implicit diffusion between Dirichlet walls *)
From Verif Require Import Prelude NdArr Grids_model GridProps Spec SpecLin SpecDiff LinAlg Cplx Boundaries_model FD_model PRep FDProofs FDProps WallBC WallBCProps ImposeProps WallFD Pressure_model PressureProps WallFDProps FastDiag_model FastDiagProofs FastDiagProps FastDiagCalc SpecDiag FastDiagImplProps Laplacian_model LaplacianProofs LaplacianProps LapSign PressureSolve_model PressureSolveProps Diffusion_model DiffusionProps ImplicitDiffusionProps.
Set Implicit Arguments.
Local Open Scope Z_scope.

(** Trimming a row of the mesh with the 1-d Dirichlet condition. *)
Lemma trim_row g y oq : wfg g -> gndim g = 1%nat -> shp y = gshape g -> (oq == 1 \/ oq == 1 # 2)%Q ->
  exists w, trim_boundary (dirichlet_bc 1 None) (mkga y [oq] g) = Ok w /\ length (shp (gdata w)) = 1%nat /\
    nth 0 (shp (gdata w)) 0%nat = (if Qeq_bool oq 1 then nth 0 (gshape g) 0 - 1 else nth 0 (gshape g) 0)%nat /\
    forall j, get (gdata w) [j] = get y [j].
Proof.
  intros Hg Hd Hs Ho. set (u := mkga y [oq] g). set (b := dirichlet_bc 1 None).
  assert (Hu : wf_garr u) by (split; [exact Hg | split; [exact Hs | symmetry; exact Hd]]).
  assert (Hes : edge_side b (goff u) 0 = if Qeq_bool oq 1 then Some (true, 0%R) else None).
  { unfold edge_side, b. cbn [dirichlet_bc homogeneous btypes bvals repeat nth_error length goff u nth].
    destruct (Qeq_bool oq 1) eqn:E; [reflexivity|]. destruct Ho as [Ho | Ho]; [apply Qeq_bool_iff in Ho; congruence|].
    assert (E0 : Qeq_bool oq 0 = false) by (rewrite Ho; reflexivity). rewrite E0. reflexivity. }
  destruct (@trim_boundary_regular b u Hu) as (w & Ew & (T1 & T2 & T3 & T4 & T5) & Hget).
  { cbn [ggrid u]. rewrite Hd. intros a Ha. assert (a = 0%nat) as -> by lia. right. rewrite Hes.
    destruct Ho as [Ho|Ho]; [right; apply Qeq_bool_iff in Ho; rewrite Ho; discriminate | left; exact Ho]. }
  exists w. split; [exact Ew|]. cbn [ggrid u] in *. rewrite Hd in *. split; [exact T4|]. specialize (T5 0%nat ltac:(lia)). rewrite Hes in T5. unfold ushape in T5.
  split.
  - rewrite T5. cbn [below]. destruct (Qeq_bool oq 1); cbn; rewrite ?Hs; reflexivity.
  - intros j. rewrite Hget by reflexivity. cbn [seq map]. rewrite Hes. f_equal. destruct (Qeq_bool oq 1); reflexivity.
Qed.

(** What [_subtract_linear_part_dirichlet] does on 2-d grids whose row length matches the axis. *)
Lemma subtract_linear_2d g o axis d lv uv : wfg g -> gndim g = 2%nat -> length o = 2%nat -> (axis < 2)%nat ->
  nth axis (gshape g) 0%nat = nth 1 (gshape g) 0%nat -> (nth axis o 0 == 1 \/ nth axis o 0 == 1 # 2)%Q ->
  (fst (nth axis (gdomain g) (0%R, 0%R)) <> snd (nth axis (gdomain g) (0%R, 0%R)))%R ->
  nth axis (shp d) 0%nat = (if Qeq_bool (nth axis o 0%Q) 1 then nth axis (gshape g) 0 - 1 else nth axis (gshape g) 0)%nat ->
  exists d', subtract_linear_part_dirichlet d g axis o (lv, uv) = Ok d' /\ shp d' = shp d /\
    forall ix, get d' ix = (get d ix - (lv + (uv - lv) * (coord g o axis [0%Z; nth axis ix 0%Z] - fst (nth axis (gdomain g) (0%R, 0%R))) /
      (snd (nth axis (gdomain g) (0%R, 0%R)) - fst (nth axis (gdomain g) (0%R, 0%R)))))%R.
Proof.
  intros Hw Hd Ho Ha Hn Hoo Hdom Hsd. unfold subtract_linear_part_dirichlet.
  destruct (mesh_points_lem o Hw) as (Hm & _). rewrite Hd in Hm. destruct (Hm Ho) as (m & Em & HLm & Hmv). rewrite Em. cbn [bind].
  specialize (Hmv axis Ha). destruct Hmv as (Hms & Hmg).
  destruct (nth_error m axis) as [ma|] eqn:Ema; [|apply nth_error_None in Ema; lia].
  rewrite (nth_error_nth _ _ _ Ema) in Hms, Hmg. unfold first_row. rewrite Hms.
  destruct (gshape g) as [|n0 [|n1 [|]]] eqn:Hsh; try (unfold gndim in Hd; rewrite Hsh in Hd; cbn in Hd; lia). cbn [bind].
  assert (Hp1 : (0 < n1)%nat). { pose proof (@allpos_nth (gshape g) 1) as H. rewrite Hsh in H. apply H; [rewrite <- Hsh; apply Hw | cbn; lia]. }
  change (nth 1 [n0; n1] 0%nat) with n1 in Hn. rewrite Hn.
  assert (Eg : grid_init [n1] StepNone (DomSeq [[fst (nth axis (gdomain g) (0%R, 0%R)); snd (nth axis (gdomain g) (0%R, 0%R))]]) =
    Ok (mkgrid [n1] [((snd (nth axis (gdomain g) (0%R, 0%R)) - fst (nth axis (gdomain g) (0%R, 0%R))) / INR n1)%R] [(fst (nth axis (gdomain g) (0%R, 0%R)), snd (nth axis (gdomain g) (0%R, 0%R)))])).
  { unfold grid_init. cbn [length Nat.eqb mapM pair_of_bounds bind combine]. replace (n1 =? 0)%nat with false by (symmetry; apply Nat.eqb_neq; lia). reflexivity. }
  rewrite Eg. cbn [bind shp]. set (g1 := mkgrid _ _ _).
  destruct (@trim_row g1 (mkarr [n1] (fun ix => get ma (0 :: ix))) (nth axis o 0%Q)) as (w & Ew & W1 & W2 & W3); [| reflexivity | reflexivity | exact Hoo |].
  { split; [reflexivity|]. split; [reflexivity|]. split; [repeat constructor; exact Hp1|]. repeat constructor. intros E. apply Hdom.
    assert (0 < INR n1)%R by (apply lt_0_INR; exact Hp1). apply Rmult_integral in E. destruct E as [E|E]; [lra|]. apply Rinv_neq_0_compat in E; [destruct E | lra]. }
  rewrite Ew. cbn [bind]. unfold subtract_along. cbn [amap shp get]. rewrite W2. cbn [gshape g1 nth]. rewrite Hsd, Hn.
  rewrite Nat.eqb_refl. eexists. split; [reflexivity|]. split; [reflexivity|]. intros ix. cbn [get]. rewrite W3. cbn [get]. rewrite Hmg. reflexivity.
Qed.

(** The two passes along an axis whose ends are Dirichlet walls or have zero gradient. *)
Lemma rhs_axis_walls w b a d t1 t2 lo hi : wfg (ggrid w) -> gndim (ggrid w) = 2%nat -> length (goff w) = 2%nat -> (a < 2)%nat ->
  nth a (gshape (ggrid w)) 0%nat = nth 1 (gshape (ggrid w)) 0%nat -> (nth a (goff w) 0 == 1 \/ nth a (goff w) 0 == 1 # 2)%Q ->
  (fst (nth a (gdomain (ggrid w)) (0%R, 0%R)) <> snd (nth a (gdomain (ggrid w)) (0%R, 0%R)))%R ->
  nth a (shp d) 0%nat = (if Qeq_bool (nth a (goff w) 0%Q) 1 then nth a (gshape (ggrid w)) 0 - 1 else nth a (gshape (ggrid w)) 0)%nat ->
  nth_error (btypes b) a = Some (t1, t2) -> nth_error (bvals b) a = Some (Some lo, Some hi) ->
  (t1 = Dirichlet /\ t2 = Dirichlet \/ (t1 = Dirichlet \/ t1 = Neumann) /\ (t2 = Dirichlet \/ t2 = Neumann) /\ lo = 0%R /\ hi = 0%R) ->
  exists d', (let* d := diffusion_rhs_side w b a false d in diffusion_rhs_side w b a true d) = Ok d' /\ shp d' = shp d /\
    forall ix, get d' ix = (get d ix - (lo + (hi - lo) * (coord (ggrid w) (goff w) a [0%Z; nth a ix 0%Z] - fst (nth a (gdomain (ggrid w)) (0%R, 0%R))) /
      (snd (nth a (gdomain (ggrid w)) (0%R, 0%R)) - fst (nth a (gdomain (ggrid w)) (0%R, 0%R)))))%R.
Proof.
  intros Hw Hd Ho Ha Hn Hoo Hdom Hs Ht Hv Hcase. unfold diffusion_rhs_side, btype, bval. rewrite (nth_error_nth _ _ _ Ht), (nth_error_nth _ _ _ Hv). cbn [fst snd].
  assert (H1 : exists d1, (if isDir t1 then subtract_linear_part_dirichlet d (ggrid w) a (goff w) (lo, 0%R) else if isNeu t1 then if truthy (Some lo) || truthy (Some hi) then Err ENotImpl else Ok d else Ok d) = Ok d1 /\ shp d1 = shp d /\
     forall ix, get d1 ix = (get d ix - (lo + (0 - lo) * (coord (ggrid w) (goff w) a [0%Z; nth a ix 0%Z] - fst (nth a (gdomain (ggrid w)) (0%R, 0%R))) /
      (snd (nth a (gdomain (ggrid w)) (0%R, 0%R)) - fst (nth a (gdomain (ggrid w)) (0%R, 0%R)))))%R).
  { assert (Hcs : t1 = Dirichlet \/ t1 = Neumann /\ lo = 0%R /\ hi = 0%R) by tauto. destruct Hcs as [-> | (-> & -> & ->)]; cbn [isDir isNeu].
    - apply subtract_linear_2d; auto.
    - cbn [truthy]. destruct (Req_EM_T 0 0) as [_|N]; [|congruence]. exists d. split; [reflexivity|]. split; [reflexivity|]. intros ix. unfold Rdiv. ring. }
  destruct H1 as (d1 & E1 & S1 & G1). rewrite E1. cbn [bind].
  assert (H2 : exists d2, (if isDir t2 then subtract_linear_part_dirichlet d1 (ggrid w) a (goff w) (0%R, hi) else if isNeu t2 then if truthy (Some lo) || truthy (Some hi) then Err ENotImpl else Ok d1 else Ok d1) = Ok d2 /\ shp d2 = shp d1 /\
     forall ix, get d2 ix = (get d1 ix - (0 + (hi - 0) * (coord (ggrid w) (goff w) a [0%Z; nth a ix 0%Z] - fst (nth a (gdomain (ggrid w)) (0%R, 0%R))) /
      (snd (nth a (gdomain (ggrid w)) (0%R, 0%R)) - fst (nth a (gdomain (ggrid w)) (0%R, 0%R)))))%R).
  { rewrite <- S1 in Hs. assert (Hcs : t2 = Dirichlet \/ t2 = Neumann /\ lo = 0%R /\ hi = 0%R) by tauto. destruct Hcs as [-> | (-> & -> & ->)]; cbn [isDir isNeu].
    - apply subtract_linear_2d; auto.
    - cbn [truthy]. destruct (Req_EM_T 0 0) as [_|N]; [|congruence]. exists d1. split; [reflexivity|]. split; [reflexivity|]. intros ix. unfold Rdiv. ring. }
  destruct H2 as (d2 & E2 & S2 & G2). exists d2. split; [exact E2|].
  split; [congruence|]. intros ix. rewrite G2, G1. unfold Rdiv. ring.
Qed.

(** The linear profile between two Dirichlet walls along axis [a], at the data points. *)
Definition profile (g : grid) (o : list Q) (a : nat) (lo hi : R) (ix : list Z) : R :=
  (lo + (hi - lo) * ((IZR (nth a ix 0%Z) + Q2R (nth a o 0%Q)) / INR (nth a (gshape g) 0%nat)))%R.
Lemma profile_upd g o a lo hi j ix : (a < length ix)%nat -> profile g o a lo hi (upd a j ix) = (lo + (hi - lo) * ((IZR j + Q2R (nth a o 0%Q)) / INR (nth a (gshape g) 0%nat)))%R.
Proof. intros Ha. unfold profile. rewrite nth_upd_same by exact Ha. reflexivity. Qed.
Lemma profile_upd_other g o a a' lo hi j ix : a <> a' -> profile g o a lo hi (upd a' j ix) = profile g o a lo hi ix.
Proof. intros Ha. unfold profile. rewrite nth_upd_other by auto. reflexivity. Qed.

(** It has no second difference, with the walls' values. *)
Lemma profile_harmonic u b a lo hi ix : wf_garr u -> (a < gndim (ggrid u))%nat -> dirichlet_axis b u a lo hi -> inb (gshape (ggrid u)) ix -> wall_value b u a ix = None ->
  second_difference b (mkga (mkarr (gshape (ggrid u)) (profile (ggrid u) (goff u) a lo hi)) (goff u) (ggrid u)) a ix = 0%R.
Proof.
  intros Hu Ha (Ht & Hv & Hc) Hix Hwv. set (g := ggrid u) in *. set (o := goff u) in *.
  assert (HL : (a < length ix)%nat) by (rewrite (inb_length _ _ Hix); exact Ha).
  assert (Hn : (0 < nth a (gshape g) 0)%nat) by (apply allpos_nth; [apply Hu | exact Ha]).
  assert (HN : (0 < INR (nth a (gshape g) 0%nat))%R) by (apply lt_0_INR; exact Hn).
  pose proof (@inb_nth _ _ a Hix Ha) as Hi. unfold second_difference, nbr. cbn [ggrid goff gdata get]. rewrite (nth_error_nth _ _ _ Ht), (nth_error_nth _ _ _ Hv).
  unfold wall_value in Hwv. fold g o in Hwv. 
  rewrite !profile_upd by exact HL. rewrite (INR_IZR_INZ (nth a (gshape g) 0%nat)) in *.
  unfold profile. rewrite (INR_IZR_INZ (nth a (gshape g) 0%nat)). set (N := Z.of_nat (nth a (gshape g) 0%nat)) in *. set (i := nth a ix 0) in *.
  unfold Rdiv. apply Rmult_eq_0_compat_r. fold (hstep g a).
  destruct (edge_side b o a) as [[s v]|] eqn:Es.
  - assert (Hv' : Q2R (nth a o 0%Q) = (if s then 1 else 0)%R /\ (if s then i <> N - 1 else i <> 0)).
    { unfold edge_side in Es. rewrite Ht, Hv in Es. destruct (Qeq_bool (nth a o 0%Q) 1) eqn:E1; [|destruct (Qeq_bool (nth a o 0%Q) 0) eqn:E0; [|discriminate]]; injection Es as <- <-.
      - apply Qeq_bool_iff in E1. rewrite (Qreals.Qeq_eqR _ _ E1). split; [unfold Q2R; cbn; lra|]. destruct (i =? N - 1) eqn:E; [discriminate | apply Z.eqb_neq in E; exact E].
      - apply Qeq_bool_iff in E0. rewrite (Qreals.Qeq_eqR _ _ E0). split; [unfold Q2R; cbn; lra|]. destruct (i =? 0) eqn:E; [discriminate | apply Z.eqb_neq in E; exact E]. }
    destruct Hv' as (Eo & Hnw). rewrite Eo.
    assert (HNz : IZR N <> 0%R) by lra.
    destruct s.
    + assert (C1 : (i + 1 <? 0) = false) by (apply Z.ltb_ge; lia). rewrite C1. 
      assert (C2 : (N - 1 <=? i + -1) = false) by (apply Z.leb_gt; lia). rewrite C2.
      destruct (N - 1 <=? i + 1) eqn:E1; destruct (i + -1 <? 0) eqn:E2; rewrite ?Z.leb_le, ?Z.leb_gt, ?Z.ltb_lt, ?Z.ltb_ge in *.
      * assert (i = 0) as -> by lia. assert (EN : N = 2) by lia. rewrite EN. field. 
      * assert (Ei : i = N - 2) by lia. rewrite Ei. rewrite ?plus_IZR, ?minus_IZR. field. exact HNz.
      * assert (i = 0) as -> by lia. rewrite ?plus_IZR. field. exact HNz.
      * rewrite ?plus_IZR. field. exact HNz.
    + assert (C1 : (i + 1 <? 1) = false) by (apply Z.ltb_ge; lia). rewrite C1. 
      assert (C2 : (N <=? i + -1) = false) by (apply Z.leb_gt; lia). rewrite C2.
      destruct (N <=? i + 1) eqn:E1; destruct (i + -1 <? 1) eqn:E2; rewrite ?Z.leb_le, ?Z.leb_gt, ?Z.ltb_lt, ?Z.ltb_ge in *.
      * assert (Ei : i = 1) by lia. rewrite Ei. assert (EN : N = 2) by lia. rewrite EN. field. 
      * assert (Ei : i = N - 1) by lia. rewrite Ei. rewrite ?plus_IZR, ?minus_IZR. field. exact HNz.
      * assert (Ei : i = 1) by lia. rewrite Ei. rewrite ?plus_IZR. field. exact HNz.
      * rewrite ?plus_IZR. field. exact HNz.
  - destruct Hc as [Hc|Hc]; [|fold o in Hc; congruence]. unfold centred in Hc. fold o in Hc. rewrite (Qreals.Qeq_eqR _ _ Hc).
    replace (Q2R (1 # 2)) with (1 / 2)%R by (unfold Q2R; cbn; lra). assert (HNz : IZR N <> 0%R) by lra.
    assert (C1 : (i + 1 <? 0) = false) by (apply Z.ltb_ge; lia). rewrite C1. 
    assert (C2 : (N <=? i + -1) = false) by (apply Z.leb_gt; lia). rewrite C2. cbn [beyond].
    destruct (N <=? i + 1) eqn:E1; destruct (i + -1 <? 0) eqn:E2; rewrite ?Z.leb_le, ?Z.leb_gt, ?Z.ltb_lt, ?Z.ltb_ge in *.
    * assert (Ei : i = 0) by lia. rewrite Ei. assert (EN : N = 1) by lia. rewrite EN. rewrite ?minus_IZR. field.
    * assert (Ei : i = N - 1) by lia. rewrite Ei. rewrite ?plus_IZR, ?minus_IZR. field. exact HNz.
    * assert (Ei : i = 0) by lia. rewrite Ei. rewrite ?plus_IZR. field. exact HNz.
    * rewrite ?plus_IZR. field. exact HNz.
Qed.

Lemma const_axis_flat b u a W ix : insulated_axis b u a -> (forall j, W (upd a j ix) = W ix) ->
  second_difference b (mkga (mkarr (gshape (ggrid u)) W) (goff u) (ggrid u)) a ix = 0%R.
Proof.
  intros H HW. assert (Hn : forall k, nbr b (mkga (mkarr (gshape (ggrid u)) W) (goff u) (ggrid u)) a k ix = W ix).
  { intros k. unfold nbr. cbn [ggrid gdata get goff]. destruct H as [Hp|(Hc & (t1 & v1 & A1 & A2) & (t2 & v2 & B1 & B2))].
    - rewrite (nth_error_nth _ _ _ Hp). destruct (nth a (bvals b) (None, None)). apply HW.
    - rewrite A1 in B1. injection B1 as <- ->. rewrite A2 in B2. injection B2 as <- ->. rewrite (nth_error_nth _ _ _ A1), (nth_error_nth _ _ _ A2). rewrite edge_not_half by exact Hc.
      cbv zeta beta iota. cbn [beyond]. rewrite !HW. destruct (_ <? 0); [ring|]. destruct (_ <=? _); ring. }
  unfold second_difference. rewrite !Hn. cbn [gdata get]. unfold Rdiv. ring.
Qed.
Lemma dirichlet_walled b u a lo hi : dirichlet_axis b u a lo hi -> walled_axis b u a.
Proof.
  intros (Ht & Hv & [Hc|Hc]); [right; left | right; right; exact Hc]. split; [exact Hc|]. exists Dirichlet, lo, Dirichlet, hi.
  split; [exists Dirichlet, (Some hi); auto|]. split; [exists Dirichlet, (Some lo); auto|]. auto.
Qed.
(** Offset and size of the trimmed data along a walled axis. *)
Lemma wall_trim b u a w T : (centred u a \/ edge_side b (goff u) a <> None) -> trimmed b u T w -> (a < gndim (ggrid u))%nat -> T a = true -> wf_garr u ->
  (nth a (goff w) 0 == 1 \/ nth a (goff w) 0 == 1 # 2)%Q /\
  nth a (shp (gdata w)) 0%nat = (if Qeq_bool (nth a (goff w) 0%Q) 1 then nth a (gshape (ggrid u)) 0 - 1 else nth a (gshape (ggrid u)) 0)%nat /\
  (forall j, IZR j + Q2R (nth a (goff w) 0%Q) = IZR (j + inner_start b (goff u) a) + Q2R (nth a (goff u) 0%Q))%R.
Proof.
  intros Hc (T1 & T2 & T3 & T4 & T5) Ha HT Hu. specialize (T3 a Ha). specialize (T5 a Ha). rewrite HT in *. cbn [andb] in *. unfold offat, ushape in *.
  unfold inner_start.
  assert (Hq : forall q q' : Q, (q == q')%Q -> Qeq_bool q 1 = Qeq_bool q' 1) by (intros q q' E; rewrite E; reflexivity).
  destruct (edge_side b (goff u) a) as [[s v]|] eqn:Es; cbn [isbot isedge] in *.
  - assert (Hoff : (nth a (goff u) 0 == if s then 1 else 0)%Q).
    { unfold edge_side in Es. destruct (nth_error (btypes b) a) as [[[] []]|]; try discriminate; destruct (nth_error (bvals b) a) as [[[lo|] [hi|]]|]; try discriminate.
      destruct (Qeq_bool (nth a (goff u) 0%Q) 1) eqn:E1; [|destruct (Qeq_bool (nth a (goff u) 0%Q) 0) eqn:E0; [|discriminate]]; injection Es as <- <-; apply Qeq_bool_iff; assumption. }
    assert (Ho1 : (nth a (goff w) 0 == 1)%Q) by (destruct s; [rewrite T3; exact Hoff | exact T3]).
    split; [left; exact Ho1|]. split; [rewrite T5, (Hq _ _ Ho1); reflexivity|]. intros j. rewrite (Qreals.Qeq_eqR _ _ Ho1), (Qreals.Qeq_eqR _ _ Hoff), plus_IZR.
    destruct s; unfold Q2R; cbn; lra.
  - destruct Hc as [Hc|Hc]; [|congruence]. unfold centred in Hc. assert (Ho1 : (nth a (goff w) 0 == 1 # 2)%Q) by (rewrite T3; exact Hc).
    split; [right; exact Ho1|]. split; [rewrite T5, (Hq _ _ Ho1); reflexivity|]. intros j. rewrite (Qreals.Qeq_eqR _ _ T3), Z.add_0_r. reflexivity.
Qed.
Lemma rhs_axis_insulated w b a d : insulated_axis b w a -> (let* d := diffusion_rhs_side w b a false d in diffusion_rhs_side w b a true d) = Ok d.
Proof.
  intros H. unfold diffusion_rhs_side, btype, bval. destruct H as [Hp|(_ & (t1 & v1 & A1 & A2) & (t2 & v2 & B1 & B2))].
  - rewrite (nth_error_nth _ _ _ Hp). reflexivity.
  - rewrite A1 in B1. injection B1 as <- ->. rewrite A2 in B2. injection B2 as <- ->. rewrite (nth_error_nth _ _ _ A1), (nth_error_nth _ _ _ A2). cbn [fst snd truthy].
    destruct (Req_EM_T 0 0) as [_|N]; [|congruence]. reflexivity.
Qed.
Lemma insulated_trim b u w T a : wf_garr u -> trimmed b u T w -> (a < gndim (ggrid u))%nat -> insulated_axis b u a -> insulated_axis b w a.
Proof.
  intros Hu (T1 & T2 & T3 & _) Ha [H|(Hc & H)]; [left; exact H | right; split; [|exact H]]. unfold centred in *. specialize (T3 a Ha). unfold offat in T3.
  rewrite edge_not_half in T3 by exact Hc. cbn [isbot] in T3. rewrite andb_false_r in T3. rewrite T3. exact Hc.
Qed.

(** Homogeneous axes: the transformation subtracts 0. *)
Lemma rhs_axis_homogeneous b u w a d : wf_garr u -> gndim (ggrid u) = 2%nat -> trimmed b u (below 2) w -> (a < 2)%nat ->
  (forall a, (a < 2)%nat -> (fst (nth a (gdomain (ggrid u)) (0%R, 0%R)) <> snd (nth a (gdomain (ggrid u)) (0%R, 0%R)))%R) ->
  homogeneous_axis b u a -> (dirichlet_side b a -> nth a (gshape (ggrid u)) 0%nat = nth 1 (gshape (ggrid u)) 0%nat) -> shp d = shp (gdata w) ->
  exists d', (let* d := diffusion_rhs_side w b a false d in diffusion_rhs_side w b a true d) = Ok d' /\ shp d' = shp d /\ forall ix, get d' ix = get d ix.
Proof.
  intros Hu Hd HT Ha Hdom Hh Hsq Sd. pose proof HT as (T1 & T2 & T3 & T4 & T5). rewrite Hd in *.
  assert (Hins : insulated_axis b u a -> exists d', (let* d := diffusion_rhs_side w b a false d in diffusion_rhs_side w b a true d) = Ok d' /\ shp d' = shp d /\ forall ix, get d' ix = get d ix).
  { intros Hi. exists d. split; [|split; reflexivity]. apply rhs_axis_insulated. eapply insulated_trim; eauto. lia. }
  assert (Hgen : (centred u a \/ edge_side b (goff u) a <> None) -> forall t1 t2, nth_error (btypes b) a = Some (t1, t2) -> nth_error (bvals b) a = Some (Some 0%R, Some 0%R) ->
    (t1 = Dirichlet \/ t1 = Neumann) -> (t2 = Dirichlet \/ t2 = Neumann) -> dirichlet_side b a ->
    exists d', (let* d := diffusion_rhs_side w b a false d in diffusion_rhs_side w b a true d) = Ok d' /\ shp d' = shp d /\ forall ix, get d' ix = get d ix).
  { intros Hc t1 t2 Ht Hv C1 C2 Hds. destruct (@wall_trim b u a w (below 2) Hc HT) as (Q1 & Q2 & _); [lia | apply Nat.ltb_lt; exact Ha | exact Hu|].
    destruct (@rhs_axis_walls w b a d t1 t2 0%R 0%R) as (xt & Ex & Sx & Gx); rewrite ?T1; auto; try solve [apply Hu | rewrite Sd; exact Q2 | right; auto].
    exists xt. split; [exact Ex|]. split; [exact Sx|]. intros ix. rewrite Gx. unfold Rdiv. ring. }
  destruct Hh as [H|[(Hc & t1 & t2 & H1 & H2 & C1 & C2)|(H1 & H2)]].
  - apply Hins. left; exact H.
  - pose proof H1 as (x & y & A & A'). pose proof H2 as (x' & y' & B & B'). rewrite A in B. injection B as <- ->. rewrite A' in B'. injection B' as <- ->.
    destruct C1 as [-> | ->]; [|destruct C2 as [-> | ->]].
    + apply (Hgen (or_introl Hc) _ _ A A'); auto. exists t2. left. exact A.
    + apply (Hgen (or_introl Hc) _ _ A A'); auto. exists Neumann. right. exact A.
    + apply Hins. right. auto.
  - assert (HD : nth_error (btypes b) a = Some (Dirichlet, Dirichlet)). { unfold edge_side in H1. destruct (nth_error (btypes b) a) as [[[] []]|]; try congruence. }
    apply (Hgen (or_intror H1) _ _ HD H2); auto. exists Dirichlet. left. exact HD.
Qed.
Lemma homogeneous_walled b u a : homogeneous_axis b u a -> walled_axis b u a.
Proof.
  intros [H|[(Hc & t1 & t2 & H1 & H2 & C1 & C2)|(H1 & _)]]; [left; exact H | right; left | right; right; exact H1].
  split; [exact Hc|]. exists t1, 0%R, t2, 0%R. auto.
Qed.
Lemma homogeneous_flat b u a ix : homogeneous_axis b u a ->
  second_difference b (mkga (mkarr (gshape (ggrid u)) (fun _ => 0%R)) (goff u) (ggrid u)) a ix = 0%R.
Proof.
  intros [H|[(Hc & t1 & t2 & H1 & H2 & C1 & C2)|(H1 & H2)]].
  - apply (@const_axis_flat b u a (fun _ => 0%R)); [left; exact H | reflexivity].
  - destruct H1 as (x & y & A & A'). destruct H2 as (x' & y' & B & B'). rewrite A in B. injection B as <- ->. rewrite A' in B'. injection B' as <- ->.
    unfold second_difference, nbr. rewrite (nth_error_nth _ _ _ A), (nth_error_nth _ _ _ A'). cbn [ggrid goff gdata get]. rewrite edge_not_half by exact Hc.
    unfold Rdiv. apply Rmult_eq_0_compat_r. destruct C1 as [-> | ->]; destruct C2 as [-> | ->]; cbv zeta beta iota; cbn [beyond]; repeat (match goal with |- context [if ?c then _ else _] => destruct c end); ring.
  - assert (HD : nth_error (btypes b) a = Some (Dirichlet, Dirichlet)). { unfold edge_side in H1. destruct (nth_error (btypes b) a) as [[[] []]|]; try congruence. }
    unfold second_difference, nbr. rewrite (nth_error_nth _ _ _ HD), (nth_error_nth _ _ _ H2). cbn [ggrid goff gdata get].
    unfold Rdiv. apply Rmult_eq_0_compat_r. destruct (edge_side b (goff u) a) as [[s x]|]; [|congruence]. cbv zeta beta iota; repeat (match goal with |- context [if ?c then _ else _] => destruct c end); ring.
Qed.

(* @prop C22 solve_fast_diag on 2-d grids with walls (any number of components, of any offsets): either Dirichlet walls of any two values along axis 1 with axis 0 periodic or of zero gradient, or periodic axes and walls of zero value or zero gradient in any combination (on a square grid if axis 0 has a Dirichlet wall); at least 3 cells (2 on an edge-aligned axis), nu * dt >= 0. It succeeds and every component of the result satisfies (1 - nu dt Laplacian) u_new = u exactly in every cell off the walls, the boundary values entering the Laplacian, and holds the walls' values on them. *)
Lemma implicit_diffusion_walls_lem : forall tpu eigh imp v nu dt, (0 <= dt * nu)%R ->
  (forall u, In u v -> wf_garr (garray u) /\ cells_fill_domain (ggrid (garray u)) /\ length (btypes (gbc u)) = gndim (ggrid (garray u)) /\
     diffusable_2d u /\ (forall a, (a < 2)%nat -> enough_cells (ggrid (garray u)) (gbc u) (goff (garray u)) a) /\
     forall Ls, laplacian_matrix_w_boundaries (ggrid (garray u)) (goff (garray u)) (gbc u) = Ok Ls -> implementation_ready eigh Ls (has_all_periodic v) imp) ->
  exists v', diffusion_solve_fast_diag tpu eigh v nu dt imp = Ok v' /\ Forall2 (implicitly_diffused (dt * nu)) v v'.
Proof.
  intros tpu eigh imp v nu dt Hc Hv. unfold diffusion_solve_fast_diag.
  apply (@mapM_Forall2 _ _ (diffusion_component tpu eigh (has_all_periodic v) (if has_all_periodic v then imp else Some Matmul) nu dt) (implicitly_diffused (dt * nu)) v).
  intros u Hu. destruct (Hv u Hu) as (Hw & Hfill & HL & (Hd & H01) & Hen & Hr). set (g := ggrid (garray u)) in *. set (o := goff (garray u)) in *. set (b := gbc u) in *.
  assert (Hwl : forall a, (a < gndim g)%nat -> walled_axis b (garray u) a /\ enough_cells g b o a).
  { intros a Ha. rewrite Hd in Ha. split; [|apply Hen; exact Ha]. destruct a as [|[|a]]; [| |lia].
    - destruct H01 as [(H0 & _)|(H0 & _)]; [apply insulated_walled; exact H0 | apply homogeneous_walled; exact H0].
    - destruct H01 as [(_ & lo & hi & H1)|(_ & H1 & _)]; [eapply dirichlet_walled; exact H1 | apply homogeneous_walled; exact H1]. }
  assert (HLs : exists Ls, laplacian_matrix_w_boundaries g o b = Ok Ls).
  { destruct (@laplacian_matrices_axis_lem (garray u) (bc0 b) Hw) as (Ls & E & _).
    - intros a Ha. destruct (Hwl a Ha) as (Hwa & He1 & He2). split; [apply bc0_homogeneous; exact Hwa|]. split; [exact He1|].
      intros E. apply He2. pose proof (edge_side_bc0 Hwa) as H. fold o in H, E. destruct (edge_side b o a) as [[s x]|]; [congruence | reflexivity].
    - exists Ls. exact E. }
  destruct HLs as (Ls & ELs). specialize (Hr Ls ELs).
  assert (Hreg : forall a, (a < gndim g)%nat -> regular_axis b (garray u) a).
  { intros a Ha. destruct (Hwl a Ha) as ([H|[(H & _)|H]] & _); [left; exact H | right; left; exact H | right; right; exact H]. }
  assert (Hdom : forall a, (a < 2)%nat -> (fst (nth a (gdomain g) (0%R, 0%R)) <> snd (nth a (gdomain g) (0%R, 0%R)))%R).
  { intros a Ha E. assert (Ha' : (a < gndim g)%nat) by lia. specialize (Hfill a Ha'). fold g in Hfill. pose proof (@ProjectionProps.hstep_nz g (proj1 Hw) a Ha') as Hh.
    assert (0 < INR (nth a (gshape g) 0%nat))%R by (apply lt_0_INR, allpos_nth; [apply Hw | exact Ha']). apply Hh. rewrite E in Hfill. nra. }
  destruct (@trim_boundary_regular b (garray u) Hw Hreg) as (w & Ew & HT & _). fold g in HT. rewrite Hd in HT.
  assert (Hfold : forall W, (exists d0 d1, (let* d := diffusion_rhs_side w b 0 false (gdata w) in diffusion_rhs_side w b 0 true d) = Ok d0 /\
      (let* d := diffusion_rhs_side w b 1 false d0 in diffusion_rhs_side w b 1 true d) = Ok d1 /\ shp d1 = shp (gdata w) /\
      forall jx, get d1 jx = (get (gdata w) jx - W (lift_ix g o b jx))%R) ->
    forall w', trim_boundary b (garray u) = Ok w' -> exists xt, diffusion_rhs_transform w' b = Ok xt /\ shp xt = shp (gdata w') /\
     forall jx, inb (shp (gdata w')) jx -> get xt jx = (get (gdata w') jx - W (lift_ix g o b jx))%R).
  { intros W (d0 & d1 & E0 & E1 & S1 & G1) w' Ew'. rewrite Ew in Ew'. injection Ew' as <-. exists d1. unfold diffusion_rhs_transform. destruct HT as (T1 & _). fold g in T1. rewrite T1, Hd.
    cbn [seq foldM]. rewrite E0. cbn [bind]. rewrite E1. cbn [bind]. split; [reflexivity|]. split; [exact S1|]. intros jx _. apply G1. }
  destruct H01 as [(H0 & lo & hi & H1)|(H0 & H1 & Hsq)].
  - apply (@component_diffused tpu eigh (has_all_periodic v) imp nu dt u Ls (profile g o 1 lo hi)); auto.
    + fold g. lia.
    + intros Hp a Ha. apply (@all_periodic_axes v Hp u Hu a Ha). apply (Hwl a Ha).
    + intros a ix Ha Hix Hwv. fold g in Ha. rewrite Hd in Ha. destruct a as [|[|a]]; [| |lia].
      * apply (@const_axis_flat b (garray u) 0); [exact H0 | intros j; apply profile_upd_other; lia].
      * apply (@profile_harmonic (garray u) b 1 lo hi); auto; [fold g; lia | apply Hwv; fold g; lia].
    + apply Hfold. pose proof HT as (T1 & T2 & T3 & T4 & T5). fold g in T1, T2, T4. rewrite Hd in T2, T4. exists (gdata w).
      pose proof H1 as (T1' & V1' & C1').
      destruct (@wall_trim b (garray u) 1 w (below 2) C1' HT) as (Q1 & Q2 & Q3); [fold g; lia | reflexivity | exact Hw|]. fold g in Q2.
      destruct (@rhs_axis_walls w b 1 (gdata w) Dirichlet Dirichlet lo hi) as (xt & Ex & Sx & Gx); rewrite ?T1; auto; try solve [apply Hw].
      exists xt. split; [apply rhs_axis_insulated; eapply insulated_trim; eauto; fold g; lia|]. split; [exact Ex|]. split; [exact Sx|].
      intros jx. rewrite Gx, T1. f_equal. unfold profile, coord. rewrite lift_ix_nth by lia.
      cbn [nth]. unfold o. rewrite <- Q3. assert (Hg1 : (1 < gndim g)%nat) by lia. specialize (Hfill 1%nat Hg1). fold g in Hfill. rewrite Hfill.
      pose proof (@ProjectionProps.hstep_nz g (proj1 Hw) 1%nat Hg1) as Hh.
      assert (0 < INR (nth 1 (gshape g) 0%nat))%R by (apply lt_0_INR, allpos_nth; [apply Hw | exact Hg1]). field. split; [lra | exact Hh].
  - apply (@component_diffused tpu eigh (has_all_periodic v) imp nu dt u Ls (fun _ => 0%R)); auto.
    + fold g. lia.
    + intros Hp a Ha. apply (@all_periodic_axes v Hp u Hu a Ha). apply (Hwl a Ha).
    + intros a ix Ha Hix Hwv. fold g in Ha. rewrite Hd in Ha. destruct a as [|[|a]]; [| |lia]; apply homogeneous_flat; assumption.
    + apply (Hfold (fun _ => 0%R)). destruct (@rhs_axis_homogeneous b (garray u) w 0 (gdata w)) as (d0 & E0 & S0 & G0); auto; try (fold g; lia).
      destruct (@rhs_axis_homogeneous b (garray u) w 1 d0) as (d1 & E1 & S1 & G1); auto; try (fold g; lia).
      exists d0, d1. split; [exact E0|]. split; [exact E1|]. split; [congruence|]. intros jx. rewrite G1, G0. ring.
Qed.
(** Eigendecompositions of the matrices met in the examples: 2 x 2 (edge-aligned between walls, 3 cells), and 3 x 3 with
    zero gradient on both sides, walls on both sides, or a wall below and zero gradient above. *)
Definition eig2 : arr R * arr R :=
  (mkarr [2%nat] (fun kx => if nth 0 kx 0 =? 0 then (-1)%R else (-3)%R),
   mkarr [2%nat; 2%nat] (fun ix => if nth 1 ix 0 =? 0 then sqrt (/ 2) else if nth 0 ix 0 =? 0 then sqrt (/ 2) else (- sqrt (/ 2))%R)).
Definition eigDD : arr R * arr R :=
  (mkarr [3%nat] (fun kx => if nth 0 kx 0 =? 0 then (-1)%R else if nth 0 kx 0 =? 1 then (-3)%R else (-4)%R),
   mkarr [3%nat; 3%nat] (fun ix => let i := nth 0 ix 0 in
     if nth 1 ix 0 =? 0 then (if i =? 1 then 2 * sqrt (/ 6) else sqrt (/ 6))%R
     else if nth 1 ix 0 =? 1 then (if i =? 0 then sqrt (/ 2) else if i =? 1 then 0 else - sqrt (/ 2))%R
     else (if i =? 1 then - sqrt (/ 3) else sqrt (/ 3))%R)).
Definition eigDN : arr R * arr R :=
  (mkarr [3%nat] (fun kx => if nth 0 kx 0 =? 0 then (-2 + sqrt 3)%R else if nth 0 kx 0 =? 1 then (-2)%R else (-2 - sqrt 3)%R),
   mkarr [3%nat; 3%nat] (fun ix => let i := nth 0 ix 0 in let s := sqrt 3 in
     if nth 1 ix 0 =? 0 then (if i =? 0 then (3 - s) / 6 else if i =? 1 then s / 3 else (3 + s) / 6)%R
     else if nth 1 ix 0 =? 1 then (if i =? 2 then - s / 3 else s / 3)%R
     else (if i =? 0 then (3 + s) / 6 else if i =? 1 then - s / 3 else (3 - s) / 6)%R)).
Definition exeigh (A : arr R) : arr R * arr R :=
  if (nth 0 (shp A) 0 =? 2)%nat then eig2
  else if Req_EM_T (get A [0; 0]) (-3) then (if Req_EM_T (get A [2; 2]) (-3) then eigDD else eigDN) else w3eigh A.
Definition m3 : arr R := mkarr [3%nat; 3%nat] (fun ix => lap_column 3 1 ((nth 0 ix 0 - nth 1 ix 0) mod 3)).
Definition mNN : arr R := w3L.
Definition mDD : arr R := lap_boundary (-1) 1 true (lap_boundary (-1) 1 false m3).
Definition mDN : arr R := lap_boundary 1 1 true (lap_boundary (-1) 1 false m3).
Lemma lt2 i : 0 <= i < Z.of_nat 2 -> i = 0 \/ i = 1. Proof. lia. Qed.
Lemma mDD_eig : eigen_decomposition mDD (exeigh mDD).
Proof.
  assert (E0 : get mDD [0; 0] = (-3)%R) by (cbn; lra). assert (E2 : get mDD [2; 2] = (-3)%R) by (cbn; lra).
  unfold exeigh. change (nth 0 (shp mDD) 0%nat =? 2)%nat with false. cbv iota. rewrite E0, E2. destruct (Req_EM_T (-3) (-3)) as [_|N]; [|congruence].
  pose proof (sqrt_sqrt (/ 3) ltac:(lra)) as H3. pose proof (sqrt_sqrt (/ 2) ltac:(lra)) as H2. pose proof (sqrt_sqrt (/ 6) ltac:(lra)) as H6.
  exists 3%nat. split; [reflexivity|]. split; [reflexivity|]. split; [reflexivity|].
  unfold eigDD. cbn [fst snd]. set (a := sqrt (/ 3)) in *. set (b := sqrt (/ 2)) in *. set (c := sqrt (/ 6)) in *.
  split; [|split]; intros i k Hi Hk; destruct (lt3 Hi) as [-> | [-> | ->]]; destruct (lt3 Hk) as [-> | [-> | ->]]; cbn; lra.
Qed.
Lemma mDN_eig : eigen_decomposition mDN (exeigh mDN).
Proof.
  assert (E0 : get mDN [0; 0] = (-3)%R) by (cbn; lra). assert (E2 : get mDN [2; 2] = (-1)%R) by (cbn; lra).
  unfold exeigh. change (nth 0 (shp mDN) 0%nat =? 2)%nat with false. cbv iota. rewrite E0, E2. destruct (Req_EM_T (-3) (-3)) as [_|N]; [|congruence].
  destruct (Req_EM_T (-1) (-3)) as [N|_]; [lra|].
  pose proof (sqrt_sqrt 3 ltac:(lra)) as H3.
  exists 3%nat. split; [reflexivity|]. split; [reflexivity|]. split; [reflexivity|].
  unfold eigDN. cbn [fst snd]. set (a := sqrt 3) in *.
  split; [|split]; intros i k Hi Hk; destruct (lt3 Hi) as [-> | [-> | ->]]; destruct (lt3 Hk) as [-> | [-> | ->]]; cbn; lra.
Qed.
Lemma mNN_eig : eigen_decomposition mNN (exeigh mNN).
Proof.
  assert (E0 : get mNN [0; 0] = (-1)%R) by (cbn; lra). 
  unfold exeigh. change (nth 0 (shp mNN) 0%nat =? 2)%nat with false. cbv iota. rewrite E0. destruct (Req_EM_T (-1) (-3)) as [N|_]; [lra|]. apply w3L_eig.
Qed.
Definition mE : arr R := mcut m3.
Lemma mE_eig : eigen_decomposition mE (exeigh mE).
Proof.
  unfold exeigh. change (nth 0 (shp mE) 0%nat =? 2)%nat with true. cbv iota.
  pose proof (sqrt_sqrt (/ 2) ltac:(lra)) as H2.
  exists 2%nat. split; [reflexivity|]. split; [reflexivity|]. split; [reflexivity|].
  unfold eig2. cbn [fst snd]. set (b := sqrt (/ 2)) in *.
  split; [|split]; intros i k Hi Hk; destruct (lt2 Hi) as [-> | ->]; destruct (lt2 Hk) as [-> | ->]; cbn; lra.
Qed.

(** A 3 x 3 grid with unit steps. *)
Definition g33 : grid := mkgrid [3%nat; 3%nat] [1%R; 1%R] [(0%R, 3%R); (0%R, 3%R)].
Definition v33 (o : list Q) (t : list (bctype * bctype)) (x : list (option R * option R)) (f : list Z -> R) : gvar :=
  mkgv (mkga (mkarr [3%nat; 3%nat] f) o g33) (constant_bc t x).
Lemma g33_wf : wfg g33. Proof. repeat split; repeat constructor; (lia || lra). Qed.
Lemma g33_fill : cells_fill_domain g33.
Proof. intros [|[|a]] Ha; [| |unfold gndim in Ha; cbn in Ha; lia]; unfold hstep; cbn; lra. Qed.
Lemma v33_wf o t x f : length o = 2%nat -> wf_garr (garray (v33 o t x f)).
Proof. intros Ho. split; [apply g33_wf|]. split; [reflexivity | exact Ho]. Qed.
(* @ex *)
Lemma implicit_diffusion_walls_ex_lem :
  let u := v33 [(1 # 2)%Q; 1%Q] [(Neumann, Neumann); (Dirichlet, Dirichlet)] [(Some 0%R, Some 0%R); (Some 2%R, Some 5%R)] (fun ix => IZR (nth 0 ix 0)) in
  (0 <= 1 / 10 * 3)%R /\
  (wf_garr (garray u) /\ cells_fill_domain (ggrid (garray u)) /\ length (btypes (gbc u)) = gndim (ggrid (garray u)) /\
     diffusable_2d u /\ (forall a, (a < 2)%nat -> enough_cells (ggrid (garray u)) (gbc u) (goff (garray u)) a) /\
     forall Ls, laplacian_matrix_w_boundaries (ggrid (garray u)) (goff (garray u)) (gbc u) = Ok Ls -> implementation_ready exeigh Ls (has_all_periodic [u]) (Some Fft)).
Proof.
  intros u. split; [lra|]. split; [apply v33_wf; reflexivity|]. split; [apply g33_fill|]. split; [reflexivity|]. split.
  { split; [reflexivity|]. left. split.
    - right. split; [reflexivity|]. split; eexists; eexists; (split; reflexivity).
    - exists 2%R, 5%R. split; [reflexivity|]. split; [reflexivity|]. right. discriminate. }
  split.
  { intros [|[|a]] Ha; [| |lia]; (split; [cbn; lia | intros _; cbn; lia]). }
  intros Ls E. change (laplacian_matrix_w_boundaries _ _ _) with (Ok [mNN; mE]) in E. injection E as <-. constructor; [apply mNN_eig|]. constructor; [apply mE_eig | constructor].
Qed.

(** When the linear part is not harmonic near a wall, the result is wrong there. *)
Lemma wrong_near tpu u c ix W : gndim (ggrid (garray u)) = 2%nat -> (0 < c)%R -> wf_garr (garray u) -> length (btypes (gbc u)) = 2%nat ->
  (forall a, (a < 2)%nat -> walled_axis (gbc u) (garray u) a /\ enough_cells (ggrid (garray u)) (gbc u) (goff (garray u)) a) ->
  has_all_periodic [u] = false ->
  (exists Ls, laplacian_matrix_w_boundaries (ggrid (garray u)) (goff (garray u)) (gbc u) = Ok Ls /\ Forall (fun A => eigen_decomposition A (exeigh A)) Ls) ->
  (forall w, trim_boundary (gbc u) (garray u) = Ok w -> exists xt, diffusion_rhs_transform w (gbc u) = Ok xt /\ shp xt = shp (gdata w) /\
     forall jx, inb (shp (gdata w)) jx -> get xt jx = (get (gdata w) jx - W (lift_ix (ggrid (garray u)) (goff (garray u)) (gbc u) jx))%R) ->
  inb (gshape (ggrid (garray u))) ix -> (forall a, (a < 2)%nat -> wall_value (gbc u) (garray u) a ix = None) ->
  (nsum 2 (fun a => second_difference (gbc u) (mkga (mkarr (gshape (ggrid (garray u))) W) (goff (garray u)) (ggrid (garray u))) a ix) <> 0)%R ->
  exists u', diffusion_solve_fast_diag tpu exeigh [u] c 1 None = Ok [u'] /\ ~ implicitly_diffused c u u' /\
    (get (gdata (garray u')) ix - c * nsum 2 (fun a => second_difference (gbc u) (garray u') a ix) <> get (gdata (garray u)) ix)%R.
Proof.
  intros Hd Hc Hw HL Hax Hper (Ls & EL & Heig) Hrhs Hix Hnw Hne.
  destruct (@component_residual tpu exeigh false None c 1 u Ls W) as (u' & E & B & G & O & S & V & _); auto; try (rewrite Hd; auto); try lia; try lra; try discriminate.
  exists u'. assert (Hbad : (get (gdata (garray u')) ix - c * nsum 2 (fun a => second_difference (gbc u) (garray u') a ix) <> get (gdata (garray u)) ix)%R).
  { rewrite Hd in V. specialize (V ix Hix Hnw). rewrite Rmult_1_l in V. rewrite V. intros H. apply Hne. nra. }
  split; [|split; [|exact Hbad]].
  - unfold diffusion_solve_fast_diag. rewrite Hper. cbn [mapM]. cbv iota in E. rewrite E. reflexivity.
  - intros (_ & _ & _ & _ & H & _). apply Hbad. rewrite Hd in H. apply H; auto.
Qed.

(* @prop C22 A lid-driven cavity is solved wrongly: 3 x 3 cells, unit steps, the component along axis 0 (offset (1, 1/2)) at rest with value 0 on the walls of axis 0, 0 on the lower and 1 on the upper wall of axis 1. The call succeeds, but the result does not satisfy (1 - nu dt Laplacian) u_new = u in a cell next to a side wall, for every nu * dt > 0: the linear profile subtracted along axis 1 does not vanish on the side walls. *)
Lemma implicit_diffusion_cavity_refuted_lem : forall tpu c, (0 < c)%R -> exists u', 
  let u := v33 [1%Q; (1 # 2)%Q] [(Dirichlet, Dirichlet); (Dirichlet, Dirichlet)] [(Some 0%R, Some 0%R); (Some 0%R, Some 1%R)] (fun _ => 0%R) in
  diffusion_solve_fast_diag tpu exeigh [u] c 1 None = Ok [u'] /\ ~ implicitly_diffused c u u' /\
  (get (gdata (garray u')) [0%Z; 1%Z] - c * nsum 2 (fun a => second_difference (gbc u) (garray u') a [0%Z; 1%Z]) <> get (gdata (garray u)) [0%Z; 1%Z])%R.
Proof.
  intros tpu c Hc. set (u := v33 _ _ _ _). cbv zeta.
  assert (Hw : wf_garr (garray u)) by (apply v33_wf; reflexivity).
  assert (D0 : dirichlet_axis (gbc u) (garray u) 0 0 0) by (split; [reflexivity|]; split; [reflexivity | right; discriminate]).
  assert (D1 : dirichlet_axis (gbc u) (garray u) 1 0 1) by (split; [reflexivity|]; split; [reflexivity | left; reflexivity]).
  apply (@wrong_near tpu u c [0; 1] (profile g33 [1%Q; (1 # 2)%Q] 1 0 1)); auto; try reflexivity.
  - intros [|[|a]] Ha; [| |lia]; (split; [eapply dirichlet_walled; eassumption | split; [cbn; lia | intros _; cbn; lia]]).
  - exists [mE; mDD]. split; [reflexivity|]. constructor; [apply mE_eig|]. constructor; [apply mDD_eig | constructor].
  - intros w Ew. assert (Hreg : forall a, (a < gndim (ggrid (garray u)))%nat -> regular_axis (gbc u) (garray u) a).
    { intros [|[|a]] Ha; [right; right; discriminate | right; left; reflexivity | unfold gndim in Ha; cbn in Ha; lia]. }
    destruct (@trim_boundary_regular (gbc u) (garray u) Hw Hreg) as (w' & Ew' & HT & _). rewrite Ew in Ew'. injection Ew' as <-.
    pose proof HT as (T1 & T2 & T3 & T4 & T5). change (ggrid (garray u)) with g33 in T1.
    assert (Hdom : forall a, (a < 2)%nat -> (fst (nth a (gdomain g33) (0%R, 0%R)) <> snd (nth a (gdomain g33) (0%R, 0%R)))%R) by (intros [|[|a]] Ha; [| |lia]; cbn; lra).
    destruct (@rhs_axis_homogeneous (gbc u) (garray u) w 0 (gdata w)) as (d0 & E0 & S0 & G0); auto; try reflexivity.
    { right; right. split; [discriminate | reflexivity]. }
    destruct (@wall_trim (gbc u) (garray u) 1 w (below 2)) as (Q1 & Q2 & Q3); auto; try reflexivity; [left; reflexivity|].
    destruct (@rhs_axis_walls w (gbc u) 1 d0 Dirichlet Dirichlet 0 1) as (xt & Ex & Sx & Gx); rewrite ?T1; auto; try reflexivity; try (apply Hw).
    { rewrite S0. exact Q2. }
    exists xt. unfold diffusion_rhs_transform. rewrite T1. change (gndim g33) with 2%nat. cbn [seq foldM]. rewrite E0. cbn [bind]. rewrite Ex. cbn [bind].
    split; [reflexivity|]. split; [congruence|]. intros jx Hjx. rewrite Gx, G0, T1. f_equal. unfold profile, coord. rewrite lift_ix_nth by (unfold gndim; cbn; lia).
    change (goff (garray u)) with [1%Q; (1 # 2)%Q] in Q3 |- *. rewrite <- Q3. cbn [nth g33 gdomain gshape fst snd gstep hstep]. unfold hstep. cbn [g33 gstep nth]. cbn [INR]. field.
  - cbn. lia.
  - intros [|[|a]] Ha; [| |lia]; reflexivity.
  - rewrite !nsum_S, nsum_0. change (ggrid (garray u)) with g33. change (goff (garray u)) with [1%Q; (1 # 2)%Q].
    pose proof (@profile_harmonic (garray u) (gbc u) 1 0 1 [0; 1] Hw ltac:(unfold gndim; cbn; lia) D1 ltac:(cbn; lia) eq_refl) as H1.
    change (ggrid (garray u)) with g33 in H1. change (goff (garray u)) with [1%Q; (1 # 2)%Q] in H1. rewrite H1.
    unfold second_difference, nbr, profile, hstep, Q2R. cbn. lra.
Qed.

(* @prop C22 Dirichlet walls with a nonzero value along axis 0 are handled wrongly without any error on square 2-d grids (the linear part is evaluated along the wrong axis, so a constant is subtracted): 3 x 3 cells, unit steps, cell-centred data at rest, values 0 and 1 on the walls of axis 0, zero gradient along axis 1; the result violates (1 - nu dt Laplacian) u_new = u next to the wall for every nu * dt > 0. *)
Lemma implicit_diffusion_axis0_refuted_lem : forall tpu c, (0 < c)%R -> exists u', 
  let u := v33 [(1 # 2)%Q; (1 # 2)%Q] [(Dirichlet, Dirichlet); (Neumann, Neumann)] [(Some 0%R, Some 1%R); (Some 0%R, Some 0%R)] (fun _ => 0%R) in
  diffusion_solve_fast_diag tpu exeigh [u] c 1 None = Ok [u'] /\ ~ implicitly_diffused c u u' /\
  (get (gdata (garray u')) [0%Z; 1%Z] - c * nsum 2 (fun a => second_difference (gbc u) (garray u') a [0%Z; 1%Z]) <> get (gdata (garray u)) [0%Z; 1%Z])%R.
Proof.
  intros tpu c Hc. set (u := v33 _ _ _ _). cbv zeta.
  assert (Hw : wf_garr (garray u)) by (apply v33_wf; reflexivity).
  assert (D0 : dirichlet_axis (gbc u) (garray u) 0 0 1) by (split; [reflexivity|]; split; [reflexivity | left; reflexivity]).
  assert (D1 : insulated_axis (gbc u) (garray u) 1) by (right; split; [reflexivity|]; split; eexists; eexists; (split; reflexivity)).
  apply (@wrong_near tpu u c [0; 1] (fun _ => 1 / 6)%R); auto; try reflexivity.
  - intros [|[|a]] Ha; [| |lia]; (split; [|split; [cbn; lia | intros _; cbn; lia]]); [eapply dirichlet_walled; eassumption | apply insulated_walled; exact D1].
  - exists [mDD; mNN]. split; [reflexivity|]. constructor; [apply mDD_eig|]. constructor; [apply mNN_eig | constructor].
  - intros w Ew. assert (Hreg : forall a, (a < gndim (ggrid (garray u)))%nat -> regular_axis (gbc u) (garray u) a).
    { intros [|[|a]] Ha; [right; left; reflexivity | right; left; reflexivity | unfold gndim in Ha; cbn in Ha; lia]. }
    destruct (@trim_boundary_regular (gbc u) (garray u) Hw Hreg) as (w' & Ew' & HT & _). rewrite Ew in Ew'. injection Ew' as <-.
    pose proof HT as (T1 & T2 & T3 & T4 & T5). change (ggrid (garray u)) with g33 in T1.
    destruct (@wall_trim (gbc u) (garray u) 0 w (below 2)) as (Q1 & Q2 & Q3); auto; try reflexivity; [left; reflexivity | unfold gndim; cbn; lia |].
    destruct (@rhs_axis_walls w (gbc u) 0 (gdata w) Dirichlet Dirichlet 0 1) as (xt & Ex & Sx & Gx); rewrite ?T1; auto; try reflexivity; try (apply Hw); try lia; try (cbn; lra).
    exists xt. unfold diffusion_rhs_transform. rewrite T1. change (gndim g33) with 2%nat. cbn [seq foldM]. rewrite Ex. cbn [bind].
    rewrite rhs_axis_insulated by (eapply insulated_trim; eauto; unfold gndim; cbn; lia). cbn [bind].
    split; [reflexivity|]. split; [exact Sx|]. intros jx Hjx. rewrite Gx, T1. f_equal. unfold coord.
    change (goff (garray u)) with [(1 # 2)%Q; (1 # 2)%Q] in Q3 |- *. cbn [nth]. rewrite Q3. unfold inner_start, hstep, Q2R. cbn. lra.
  - cbn. lia.
  - intros [|[|a]] Ha; [| |lia]; reflexivity.
  - rewrite !nsum_S, nsum_0. unfold second_difference, nbr, hstep. cbn. lra.
Qed.

(* @prop C22 On 1-d grids solve_fast_diag never succeeds when an end of the axis is a Dirichlet wall, whatever the data, values, sizes and implementation. *)
Lemma implicit_diffusion_1d_dirichlet_refuted_lem : forall tpu eigh imp u nu dt v', wf_garr (garray u) -> gndim (ggrid (garray u)) = 1%nat ->
  walled_axis (gbc u) (garray u) 0 -> dirichlet_side (gbc u) 0 ->
  diffusion_solve_fast_diag tpu eigh [u] nu dt imp <> Ok v'.
Proof.
  intros tpu eigh imp u nu dt v' Hw Hd Hwl Hds E. unfold diffusion_solve_fast_diag in E. cbn [mapM] in E. apply bind_Ok_inv in E. destruct E as (r & E & _).
  unfold diffusion_component in E. apply bind_Ok_inv in E. destruct E as (Ls & _ & E). apply bind_Ok_inv in E. destruct E as (op & _ & E).
  apply bind_Ok_inv in E. destruct E as (w & Ew & E). apply bind_Ok_inv in E. destruct E as (xt & Ex & _).
  destruct (@trim_boundary_regular (gbc u) (garray u) Hw) as (w' & Ew' & (T1 & T2 & T3 & _) & _).
  { intros a Ha. assert (a = 0%nat) as -> by lia. destruct Hwl as [H|[(H & _)|H]]; [left; exact H | right; left; exact H | right; right; exact H]. }
  rewrite Ew in Ew'. injection Ew' as <-. unfold diffusion_rhs_transform in Ex. rewrite T1, Hd in *. cbn [seq foldM] in Ex.
  assert (Hsub : forall d p d', subtract_linear_part_dirichlet d (ggrid w) 0 (goff w) p <> Ok d').
  { intros d p d' E'. unfold subtract_linear_part_dirichlet in E'. destruct p as [lo hi]. apply bind_Ok_inv in E'. destruct E' as (m & Em & E').
    rewrite T1 in *. destruct (mesh_points_lem (goff w) (proj1 Hw)) as (Hm & _). rewrite Hd in Hm. destruct (Hm T2) as (m' & Em' & HLm & Hmv). rewrite Em in Em'. injection Em' as <-.
    specialize (Hmv 0%nat ltac:(lia)). destruct Hmv as (Hms & _).
    destruct (nth_error m 0) as [ma|] eqn:Ema; [|discriminate]. rewrite (nth_error_nth _ _ _ Ema) in Hms. unfold first_row in E'. rewrite Hms in E'.
    destruct (gshape (ggrid (garray u))) as [|n [|]] eqn:Hsh; try (unfold gndim in Hd; rewrite Hsh in Hd; cbn in Hd; lia). cbn [bind] in E'. apply bind_Ok_inv in E'. destruct E' as (g1 & _ & E'). discriminate. }
  apply bind_Ok_inv in Ex. destruct Ex as (d2 & Ex & _). apply bind_Ok_inv in Ex. destruct Ex as (d1 & E1 & E2).
  unfold diffusion_rhs_side, btype in E1, E2. destruct Hds as (t & [Ht|Ht]); rewrite (nth_error_nth _ _ _ Ht) in E1, E2; cbn [fst snd isDir] in E1, E2.
  - destruct (fst (bval (gbc u) 0)); [|discriminate]. exact (Hsub _ _ _ E1).
  - destruct (snd (bval (gbc u) 0)); [|discriminate]. exact (Hsub _ _ _ E2).
Qed.
