(** * C31: semi-Lagrangian advection *)
From Coq Require Import Qreals.
From Verif Require Import Prelude NdArr Grids_model Spec Boundaries_model BoundariesPeriodic FD_model PRep FDProofs GridProps FDProps WallBC WallBCProps ImposeProps Pressure_model PressureProps Interp_model InterpProofs InterpProps UpwindProps TvdProps Advection_model AdvectionProofs AdvectionProps.
Set Implicit Arguments.
Local Open Scope Z_scope.

Definition starts_at_zero (g : grid) : Prop := Forall (fun d => fst d = 0%R) (gdomain g).

Lemma multilinear_ext F G xs : (forall ix, length ix = length xs -> F ix = G ix) -> multilinear F xs = multilinear G xs.
Proof.
  revert F G. induction xs as [|x xs IH]; intros F G H; simpl; [apply H; reflexivity|].
  rewrite (IH (fun ix => F (Int_part x :: ix)) (fun ix => G (Int_part x :: ix))) by (intros; apply H; simpl; auto).
  rewrite (IH (fun ix => F ((Int_part x + 1) :: ix)) (fun ix => G ((Int_part x + 1) :: ix))) by (intros; apply H; simpl; auto). reflexivity.
Qed.
Lemma mlin_multilinear s xs f : length xs = length s -> mlin s xs f = multilinear (fun ix => f (wrap s ix)) xs.
Proof.
  revert xs f. induction s as [|n s IH]; intros [|x xs] f H; simpl in *; try discriminate; [reflexivity|].
  rewrite !IH by lia. reflexivity.
Qed.
Lemma frac_bounds x : (0 <= x - IZR (Int_part x) < 1)%R.
Proof. destruct (base_Int_part x). lra. Qed.
Lemma multilinear_bounds F xs m M : (forall ix, length ix = length xs -> (m <= F ix <= M)%R) -> (m <= multilinear F xs <= M)%R.
Proof.
  revert F. induction xs as [|x xs IH]; intros F H; simpl; [apply H; reflexivity|].
  destruct (IH (fun ix => F (Int_part x :: ix))) as (A1 & A2); [intros; apply H; simpl; auto|].
  destruct (IH (fun ix => F ((Int_part x + 1) :: ix))) as (B1 & B2); [intros; apply H; simpl; auto|].
  pose proof (frac_bounds x). set (w := (x - IZR (Int_part x))%R) in *.
  set (p := multilinear (fun ix => F (Int_part x :: ix)) xs) in *. set (q := multilinear (fun ix => F ((Int_part x + 1) :: ix)) xs) in *.
  split.
  - assert (0 <= (1 - w) * (p - m))%R by (apply Rmult_le_pos; lra). assert (0 <= w * (q - m))%R by (apply Rmult_le_pos; lra). lra.
  - assert (0 <= (1 - w) * (M - p))%R by (apply Rmult_le_pos; lra). assert (0 <= w * (M - q))%R by (apply Rmult_le_pos; lra). lra.
Qed.
Lemma Int_part_IZR k : Int_part (IZR k) = k.
Proof. destruct (base_Int_part (IZR k)) as (A & B). assert (C : (IZR (Int_part (IZR k)) > IZR (k - 1))%R) by (rewrite minus_IZR; lra). apply le_IZR in A. apply Rgt_lt, lt_IZR in C. lia. Qed.
Lemma multilinear_int F ks : multilinear F (map IZR ks) = F ks.
Proof.
  revert F. induction ks as [|k ks IH]; intros F; simpl; [reflexivity|]. rewrite Int_part_IZR, !IH. ring.
Qed.

Section SL.
Variables (c : gvar) (v : list gvar) (dt : R).
Let g := ggrid (garray c).
Hypothesis (Hc : periodic_field c) (Hd : (0 < gndim g)%nat) (Hv : periodic_vec g v) (Hz : starts_at_zero g).

Lemma sl_prep : exists w, advect_step_semilagrangian c v dt = Ok w /\ gbc w = gbc c /\
  prep g (goff (garray c)) (fun ix => multilinear (pval (garray c)) (departure c v dt ix)) (garray w).
Proof.
  pose proof (pf_wfg Hc) as Hw. fold g in Hw. pose proof (pf_off Hc) as Ho. fold g in Ho. pose proof Hv as (HLv & HFv).
  pose proof Hc as ((_ & Hs & _) & Hb). fold g in Hs, Hb.
  set (o := goff (garray c)) in *. set (n := gndim g) in *.
  unfold advect_step_semilagrangian.
  rewrite (@consistent_grid_all g).
  2:{ simpl; lia. }
  2:{ intros u [<-|Hu]; [reflexivity|]. apply in_map_iff in Hu. destruct Hu as (x & <- & Hx). rewrite Forall_forall in HFv. apply HFv; auto. }
  cbn [bind].
  replace (forallb (fun d => if Req_EM_T (fst d) 0 then true else false) (gdomain g)) with true.
  2:{ symmetry. apply forallb_forall. intros d Hin. unfold starts_at_zero in Hz. rewrite Forall_forall in Hz. specialize (Hz d Hin). destruct (Req_EM_T (fst d) 0); congruence. }
  cbn [negb]. fold o.
  destruct (proj1 (mesh_points_lem o Hw) Ho) as (mesh & Em & HLm & Hm). rewrite Em. cbn [bind]. fold n in HLm, Hm.
  destruct (@mapM_combine (arr R) gvar (arr R) (fun xu => let* ui := linear_interp (snd xu) o in raw2 Rminus [fst xu; amap (Rmult dt) (gdata (garray ui))])
    (fun a w => shp w = gshape g /\ forall ix, inb (gshape g) ix -> get w ix = (coord g o a ix - dt * point_velocity c v a ix)%R)
    mesh v (afull [] 0%R) dgv) as (coords & Ec & HLc & Hcoords).
  { lia. }
  { intros a Ha. assert (Ha' : (a < n)%nat) by lia. cbn [fst snd].
    destruct (periodic_vec_nth Hv Ha') as (Hp & Hpg). pose proof (pf_pvar Hp) as Pu. rewrite Hpg in Pu.
    pose proof (pf_per Hp) as Pp. rewrite Hpg in Pp. pose proof (pf_off Hp) as Po. rewrite Hpg in Po.
    destruct (@lin_all_prep g _ _ _ o Hw Pp Po Ho Pu) as (ui & Eu & _ & ((Gu & Bu & Su & Vu) & _)). rewrite Eu. cbn [bind].
    destruct (Hm a Ha') as (Sm & Vm).
    destruct (@raw2_ok Rminus (nth a mesh (afull [] 0%R)) (amap (Rmult dt) (gdata (garray ui))) (gshape g) (coord g o a) (fun ix => dt * point_velocity c v a ix)%R) as (d & Ed & Sd & Vd); auto.
    { intros ix Hix. cbn. rewrite (Vu ix Hix). unfold point_velocity. rewrite (nth_error_nth' v dgv) by (rewrite HLv; exact Ha'). reflexivity. }
    exists d. auto. }
  rewrite Ec. cbn [bind]. rewrite (has_all_periodic_pf Hc). cbn [negb].
  unfold applied. cbn [existsb is_gv orb gas map raw consistent_offset consistent_grid forallb bind]. fold o. fold g.
  set (ind := map _ (combine (combine (gstep g) o) coords)).
  assert (HLi : length ind = n).
  { unfold ind. rewrite map_length, !combine_length. destruct Hw as (Hst & _). unfold n in *. lia. }
  assert (Hind : forall a, (a < n)%nat -> shp (nth a ind (afull [] 0%R)) = gshape g /\
     forall ix, inb (gshape g) ix -> get (nth a ind (afull [] 0%R)) ix = (IZR (nth a ix 0%Z) - dt * point_velocity c v a ix / hstep g a)%R).
  { intros a Ha. unfold ind. destruct Hw as (Hst & Hdm & Hap & Hnz). fold n in Hst, Hdm.
    rewrite (@nth_map' ((R * Q) * arr R) (arr R) _ _ a ((0%R, 0%Q), afull [] 0%R)) by (rewrite !combine_length; lia).
    rewrite combine_nth by (rewrite combine_length; lia). rewrite combine_nth by lia. cbn [fst snd].
    destruct (Hcoords a (afull [] 0%R)) as (S1 & V1); [lia|]. split; [exact S1|]. intros ix Hix. cbn [amap get]. rewrite (V1 ix Hix).
    unfold coord. replace (fst (nth a (gdomain g) (0%R, 0%R))) with 0%R.
    2:{ unfold starts_at_zero in Hz. rewrite Forall_forall in Hz. symmetry. apply Hz. apply nth_In. lia. }
    fold (hstep g a). assert (hstep g a <> 0%R) by (rewrite Forall_forall in Hnz; apply Hnz, nth_In; lia). field. auto. }
  assert (Hlen : length (shp (gdata (garray c))) = n) by (rewrite Hs; reflexivity).
  unfold map_coordinates_wrap. destruct ind as [|c0 ind'] eqn:Ei; [simpl in HLi; lia|]. rewrite <- Ei in *. rewrite HLi, Hlen, Nat.eqb_refl. cbn [negb bind].
  rewrite (@mk_gvar_ok g) by auto. eexists; split; [reflexivity|]. split; [reflexivity|]. cbn [garray].
  split; [reflexivity|]. split; [apply off_eq_refl|]. split.
  { cbn. destruct (Hind 0%nat Hd) as (S0 & _). rewrite Ei in S0. exact S0. }
  intros ix Hix. cbn [gdata get]. rewrite Hs.
  rewrite mlin_multilinear by (rewrite map_length, HLi; reflexivity).
  replace (map (fun c1 : arr R => get c1 ix) ind) with (departure c v dt ix).
  - apply multilinear_ext. intros jx _. unfold pval. rewrite Hs. reflexivity.
  - unfold departure. fold g. fold n. apply nth_ext with (d := 0%R) (d' := 0%R); [rewrite !map_length, seq_length; auto|].
    intros a Ha. rewrite map_length, seq_length in Ha. rewrite nth_map_seq by auto.
    rewrite (@nth_map' (arr R) R _ ind a (afull [] 0%R)) by lia. destruct (Hind a Ha) as (_ & V0). rewrite (V0 ix Hix). reflexivity.
Qed.
End SL.

(* @prop C31 A semi-Lagrangian step on a periodic grid starting at the origin returns, with the scalar's offset and boundary conditions, the periodic multilinear interpolant of the scalar at the point each cell's fluid came from (index minus dt * velocity / step on every axis). *)
Lemma semilagrangian_spec_lem : forall c v dt, periodic_field c -> (0 < gndim (ggrid (garray c)))%nat ->
  periodic_vec (ggrid (garray c)) v -> Forall (fun d => fst d = 0%R) (gdomain (ggrid (garray c))) ->
  exists w, advect_step_semilagrangian c v dt = Ok w /\ gbc w = gbc c /\
    is_field (garray w) (ggrid (garray c)) (goff (garray c)) (fun ix => multilinear (pval (garray c)) (departure c v dt ix)).
Proof. intros c v dt Hc Hd Hv Hz. exact (sl_prep dt Hc Hd Hv Hz). Qed.
Lemma ipg_zero : Forall (fun d => fst d = 0%R) (gdomain ipg).
Proof. repeat constructor. Qed.
(* @ex *)
Lemma semilagrangian_spec_ex_lem : periodic_field ipc /\ (0 < gndim (ggrid (garray ipc)))%nat /\ periodic_vec (ggrid (garray ipc)) ipv /\ Forall (fun d => fst d = 0%R) (gdomain (ggrid (garray ipc))).
Proof. split; [exact ipc_pf|]. split; [cbn; lia|]. split; [exact ipv_pv | exact ipg_zero]. Qed.

Lemma departure_length c v dt ix : length (departure c v dt ix) = gndim (ggrid (garray c)).
Proof. unfold departure. rewrite map_length, seq_length. reflexivity. Qed.

(* @prop C31 A semi-Lagrangian step is unconditionally bounded: whatever the velocity and the time step, the result stays within any bounds of the scalar (constants are preserved). *)
Lemma semilagrangian_bounded_lem : forall c v dt w m M, periodic_field c -> (0 < gndim (ggrid (garray c)))%nat ->
  periodic_vec (ggrid (garray c)) v -> Forall (fun d => fst d = 0%R) (gdomain (ggrid (garray c))) ->
  advect_step_semilagrangian c v dt = Ok w ->
  (forall ix, inb (gshape (ggrid (garray c))) ix -> (m <= get (gdata (garray c)) ix <= M)%R) ->
  forall ix, inb (gshape (ggrid (garray c))) ix -> (m <= get (gdata (garray w)) ix <= M)%R.
Proof.
  intros c v dt w m M Hc Hd Hv Hz E Hb ix Hix. destruct (sl_prep dt Hc Hd Hv Hz) as (w' & E' & _ & (_ & _ & _ & V)). rewrite E in E'. injection E' as <-.
  rewrite (V ix Hix). apply multilinear_bounds. intros jx Hjx. rewrite departure_length in Hjx. apply (pval_bounds Hc Hb). exact Hjx.
Qed.
(* @ex *)
Lemma semilagrangian_bounded_ex_lem : (exists w, advect_step_semilagrangian ipc ipv 5 = Ok w) /\ (forall ix, inb (gshape (ggrid (garray ipc))) ix -> (0 <= get (gdata (garray ipc)) ix <= 31)%R).
Proof.
  split; [|apply linear_interpolation_bounded_ex_lem]. destruct semilagrangian_spec_ex_lem as (A & B & C & D).
  destruct (@semilagrangian_spec_lem ipc ipv 5 A B C D) as (w & E & _). eauto.
Qed.

(* @prop C31 When the fluid of a cell moves by a whole number of cells k_a along every axis (in particular when it does not move), a semi-Lagrangian step copies the value of the cell k cells upstream, wrapping around. *)
Lemma semilagrangian_whole_cells_lem : forall c v dt w k ix, periodic_field c -> (0 < gndim (ggrid (garray c)))%nat ->
  periodic_vec (ggrid (garray c)) v -> Forall (fun d => fst d = 0%R) (gdomain (ggrid (garray c))) ->
  advect_step_semilagrangian c v dt = Ok w -> inb (gshape (ggrid (garray c))) ix ->
  (forall a, (a < gndim (ggrid (garray c)))%nat -> (dt * point_velocity c v a ix = IZR (k a) * hstep (ggrid (garray c)) a)%R) ->
  get (gdata (garray w)) ix = pval (garray c) (subix k ix).
Proof.
  intros c v dt w k ix Hc Hd Hv Hz E Hix Hk. destruct (sl_prep dt Hc Hd Hv Hz) as (w' & E' & _ & (_ & _ & _ & V)). rewrite E in E'. injection E' as <-.
  rewrite (V ix Hix). replace (departure c v dt ix) with (map IZR (subix k ix)); [apply multilinear_int|].
  unfold departure, subix. rewrite map_map. rewrite (@inb_len _ _ Hix). apply map_ext_in. intros a Ha. apply in_seq in Ha.
  rewrite minus_IZR, Hk by lia. unfold Rdiv. assert (Hn : hstep (ggrid (garray c)) a <> 0%R).
  { destruct (pf_wfg Hc) as (H1 & _ & _ & H2). rewrite Forall_forall in H2. apply H2, nth_In. lia. }
  field. exact Hn.
Qed.
Definition slg : grid := mkgrid [5%nat] [1%R] [(0%R, 5%R)].
Definition slc : gvar := mkgv (mkga (mkarr [5%nat] (fun ix => IZR (nth 0%nat ix 0 * nth 0%nat ix 0))) [(1 # 2)%Q] slg) (periodic_bc 1).
Definition slu : gvar := mkgv (mkga (mkarr [5%nat] (fun ix => (-1/2)%R)) [1%Q] slg) (periodic_bc 1).
Lemma slg_wf : wfg slg. Proof. repeat split; repeat constructor; (lia || lra). Qed.
Lemma slc_pf : periodic_field slc.
Proof. split; [split; [exact slg_wf|]; split; reflexivity | reflexivity]. Qed.
Lemma slu_pf : periodic_field slu.
Proof. split; [split; [exact slg_wf|]; split; reflexivity | reflexivity]. Qed.
Lemma slv_pv : periodic_vec slg [slu].
Proof. split; [reflexivity|]. apply Forall_cons; [split; [exact slu_pf | reflexivity] | constructor]. Qed.
Lemma slv_const ix : length ix = 1%nat -> point_velocity slc [slu] 0 ix = (-1/2)%R.
Proof.
  intros Hix. unfold point_velocity. cbn [nth_error].
  pose proof (@lerp_bounds [5%nat] 1 (goff (garray slu)) (goff (garray slc)) (pval (garray slu)) (-1/2) (-1/2)) as B.
  assert (HB : forall jx, length jx = length [5%nat] -> (-1/2 <= pval (garray slu) jx <= -1/2)%R) by (intros jx _; unfold pval; cbn; lra).
  specialize (B HB ix Hix). change (gndim (ggrid (garray slc))) with 1%nat. lra.
Qed.
(* @ex *)
Lemma semilagrangian_whole_cells_ex_lem : exists w, advect_step_semilagrangian slc [slu] 4 = Ok w /\ get (gdata (garray w)) [4] = 1%R.
Proof.
  destruct (@semilagrangian_spec_lem slc [slu] 4 slc_pf ltac:(cbn; lia) slv_pv ltac:(repeat constructor)) as (w & E & _).
  exists w. split; [exact E|].
  rewrite (@semilagrangian_whole_cells_lem slc [slu] 4 w (fun _ => -2) [4] slc_pf ltac:(cbn; lia) slv_pv ltac:(repeat constructor) E).
  - unfold pval. cbn. reflexivity.
  - cbn. lia.
  - intros [|a] Ha; [|cbn in Ha; lia]. rewrite slv_const by reflexivity. cbn. lra.
Qed.

(* @prop C31 Semi-Lagrangian advection raises ValueError unless the grid starts at the origin on every axis. *)
Lemma semilagrangian_origin_lem : forall c v dt, (exists d, In d (gdomain (ggrid (garray c))) /\ fst d <> 0%R) ->
  (forall u, In u v -> ggrid (garray u) = ggrid (garray c)) ->
  advect_step_semilagrangian c v dt = Err EValue.
Proof.
  intros c v dt (d & Hin & Hd) Hg. unfold advect_step_semilagrangian.
  rewrite (@consistent_grid_all (ggrid (garray c))); [| simpl; lia | intros u [<-|Hu]; [reflexivity|]; apply in_map_iff in Hu; destruct Hu as (x & <- & Hx); auto].
  cbn [bind]. replace (forallb (fun d => if Req_EM_T (fst d) 0 then true else false) (gdomain (ggrid (garray c)))) with false; [reflexivity|].
  symmetry. apply not_true_is_false. intros E. rewrite forallb_forall in E. specialize (E d Hin). destruct (Req_EM_T (fst d) 0); [contradiction | discriminate].
Qed.
(* @ex *)
Lemma semilagrangian_origin_ex_lem : exists d, In d (gdomain (mkgrid [5%nat] [1%R] [(1%R, 6%R)])) /\ fst d <> 0%R.
Proof. eexists. split; [left; reflexivity|]. cbn. lra. Qed.

(** Sums under a constant displacement. *)
Lemma Int_part_shift i x : Int_part (IZR i + x) = i + Int_part x.
Proof.
  destruct (base_Int_part (IZR i + x)) as (A & B). destruct (base_Int_part x) as (C & D).
  assert (E1 : (IZR (Int_part (IZR i + x)) < IZR (i + Int_part x + 1))%R) by (rewrite !plus_IZR; lra).
  assert (E2 : (IZR (i + Int_part x) < IZR (Int_part (IZR i + x) + 1))%R) by (rewrite !plus_IZR; lra).
  apply lt_IZR in E1. apply lt_IZR in E2. lia.
Qed.
Lemma multilinear_sum s F xs : allpos s -> periodic s F -> length xs = length s ->
  asum s (fun ix => multilinear F (map (fun p => IZR (fst p) + snd p) (combine ix xs))%R) = asum s F.
Proof.
  revert F xs. induction s as [|n s IH]; intros F [|x xs] Hp HF HL; simpl in *; try discriminate; [reflexivity|].
  inversion Hp as [|? ? Hn Hs]; subst.
  assert (HFj : forall j, periodic s (fun ix => F (j :: ix))).
  { intros j ix Hix. rewrite <- (HF (j :: wrap s ix)) by (simpl; rewrite wrap_length; auto). rewrite <- (HF (j :: ix)) by (simpl; auto). simpl.
    rewrite wrap_wrap by auto. reflexivity. }
  set (S := fun j => asum s (fun ix => F (j :: ix))).
  assert (HS : forall j, S (j mod Z.of_nat n) = S j).
  { intros j. unfold S. apply asum_ext. intros ix Hix. pose proof (@inb_length _ _ Hix) as HLx.
    rewrite <- (HF ((j mod Z.of_nat n) :: ix)) by (simpl; auto). rewrite <- (HF (j :: ix)) by (simpl; auto). simpl. rewrite Z.mod_mod by lia. reflexivity. }
  set (k := Int_part x). set (w := (x - IZR k)%R).
  rewrite (@rsum_ext n _ (fun i => (1 - w) * S ((i + k) mod Z.of_nat n)%Z + w * S ((i + (k + 1)) mod Z.of_nat n)%Z)%R).
  - rewrite rsum_plus, !rsum_scal. rewrite (@rsum_mod_shift n k S Hn), (@rsum_mod_shift n (k + 1) S Hn). fold S. ring.
  - intros i Hi. rewrite !HS. unfold S.
    rewrite (@asum_ext s _ (fun ix => (1 - w) * multilinear (fun jx => F ((i + k)%Z :: jx)) (map (fun p => IZR (fst p) + snd p) (combine ix xs)) +
        w * multilinear (fun jx => F ((i + k + 1)%Z :: jx)) (map (fun p => IZR (fst p) + snd p) (combine ix xs)))%R).
    + rewrite asum_plus, !asum_scal. rewrite !IH by auto. rewrite <- !asum_scal. rewrite <- Z.add_assoc. rewrite <- asum_plus. reflexivity.
    + intros ix _. rewrite Int_part_shift. fold k. rewrite plus_IZR. replace (IZR i + x - (IZR i + IZR k))%R with w by (unfold w; ring). reflexivity.
Qed.

(* @prop C31 A semi-Lagrangian step with a spatially constant velocity preserves the sum of the scalar over all cells. *)
Lemma semilagrangian_constant_velocity_conserves_lem : forall c v dt w U, periodic_field c -> (0 < gndim (ggrid (garray c)))%nat ->
  periodic_vec (ggrid (garray c)) v -> Forall (fun d => fst d = 0%R) (gdomain (ggrid (garray c))) ->
  (forall a u, nth_error v a = Some u -> constant_field u (U a)) ->
  advect_step_semilagrangian c v dt = Ok w ->
  total (gdata (garray w)) = total (gdata (garray c)).
Proof.
  intros c v dt w U Hc Hd Hv Hz HU E. destruct (sl_prep dt Hc Hd Hv Hz) as (w' & E' & _ & P). rewrite E in E'. injection E' as <-.
  rewrite (total_prep P). set (g := ggrid (garray c)) in *.
  assert (Ec : total (gdata (garray c)) = asum (gshape g) (pval (garray c))) by (apply (@total_prep g (goff (garray c))); apply pf_pvar; auto).
  rewrite Ec. rewrite <- (@multilinear_sum (gshape g) (pval (garray c)) (map (fun a => - (dt * U a / hstep g a))%R (seq 0 (gndim g)))).
  - apply asum_ext. intros ix Hix. pose proof (@inb_length _ _ Hix) as HL. f_equal. unfold departure. fold g.
    apply nth_ext with (d := 0%R) (d' := 0%R).
    { rewrite !map_length, combine_length, map_length, !seq_length. unfold gndim. lia. }
    intros a Ha. rewrite map_length, seq_length in Ha. rewrite nth_map_seq by auto.
    rewrite (@nth_map' (Z * R) R _ _ a (0, 0%R)) by (rewrite combine_length, map_length, seq_length; unfold gndim in *; lia).
    rewrite combine_nth by (rewrite map_length, seq_length; exact HL). cbn [fst snd]. rewrite nth_map_seq by auto.
    assert (Epv : point_velocity c v a ix = U a).
    { unfold point_velocity. rewrite (nth_error_nth' v dgv) by (destruct Hv; lia). destruct (periodic_vec_nth Hv Ha) as (Hp & Hpg).
      assert (HUa : constant_field (nth a v dgv) (U a)) by (apply (HU a); apply nth_error_nth'; destruct Hv; lia).
      pose proof (@lerp_bounds (gshape g) (gndim g) (goff (garray (nth a v dgv))) (goff (garray c)) (pval (garray (nth a v dgv))) (U a) (U a)) as B.
      assert (HB : forall jx, length jx = length (gshape g) -> (U a <= pval (garray (nth a v dgv)) jx <= U a)%R).
      { intros jx Hjx. rewrite (@constant_pval _ (U a) jx Hp HUa); [lra|]. rewrite Hpg. exact Hjx. }
      specialize (B HB ix HL). fold g. lra. }
    rewrite Epv. unfold Rdiv. ring.
  - apply (pf_wfg Hc).
  - apply pf_per; auto.
  - rewrite map_length, seq_length. reflexivity.
Qed.
(* @ex *)
Lemma semilagrangian_constant_velocity_conserves_ex_lem : periodic_field slc /\ periodic_vec (ggrid (garray slc)) [slu] /\ (exists w, advect_step_semilagrangian slc [slu] 3 = Ok w) /\
  (forall a u, nth_error [slu] a = Some u -> constant_field u (-1/2)) /\ total (gdata (garray slc)) = 30%R.
Proof.
  split; [exact slc_pf|]. split; [exact slv_pv|]. split.
  - destruct (@semilagrangian_spec_lem slc [slu] 3 slc_pf ltac:(cbn; lia) slv_pv ltac:(repeat constructor)) as (w & E & _). eauto.
  - split; [intros [|[|a]] u H; simpl in H; try discriminate; injection H as <-; intros ix _; reflexivity|]. unfold total. cbn. lra.
Qed.
