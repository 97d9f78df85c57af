(** * C59: initial velocity fields *)
From Coq Require Import Classical_Prop Qreals.
From Verif Require Import Prelude NdArr LinAlg Cplx FastDiagProofs FourierProofs Grids_model Spec SpecInit SpecCol SpecForce Boundaries_model BoundariesPeriodic FD_model PRep FDProofs GridProps FDProps Pressure_model PressureProps ProjectionProps PressureSolve_model PressureSolveProps FastDiag_model Func_model FuncProps Equations_model SpecNS EquationsProps EquationsMoreProps Collocated_model CollocatedProps CollocatedStepProps Forcings_model FilterProps ForcingsProps InitialConditions_model InitProofs InterpProps Advection_model.
Set Implicit Arguments.
Local Open Scope Z_scope.

Lemma face_offs g i : (i < gndim g)%nat -> off_eq (nth i (cell_faces g) []) (offs i (1 # 2) (cell_center g)).
Proof. intros Hi. apply (@cell_faces_spec_lem g i Hi). Qed.
Lemma faces_len g : length (cell_faces g) = gndim g.
Proof. unfold cell_faces. rewrite map_length, seq_length. reflexivity. Qed.
Lemma combine_nth2 {A B C} (l1 : list A) (l2 : list B) (l3 : list C) i a b c : length l1 = length l2 -> length l2 = length l3 ->
  nth i (combine (combine l1 l2) l3) (a, b, c) = (nth i l1 a, nth i l2 b, nth i l3 c).
Proof. intros H1 H2. rewrite combine_nth by (rewrite combine_length; lia). rewrite combine_nth by exact H1. reflexivity. Qed.

(* @prop C59 wrap_variables gives one variable per array with the array's values unchanged, at the given offsets (the cell faces by default) and with the given boundary conditions, for all periodic boundary conditions in any dimension. *)
Lemma wrap_variables_periodic_lem : forall g var bs offsets, wfg g ->
  let os := match offsets with None => cell_faces g | Some o => o end in
  length var = length os -> length os = length bs ->
  (forall a, In a var -> shp a = gshape g) -> (forall o, In o os -> length o = gndim g) -> (forall b, In b bs -> perbc g b) ->
  exists v, wrap_variables var g bs offsets = Ok v /\ length v = length var /\ map gbc v = bs /\
    forall i, (i < length var)%nat -> is_field (garray (nth i v dgv)) g (nth i os []) (get (nth i var (afull [] 0%R))).
Proof.
  intros g var bs offsets Hw os H1 H2 Ha Ho Hb. unfold wrap_variables. fold os. rewrite <- mapM_enum_snd.
  assert (HLc : length (combine (combine var os) bs) = length var) by (rewrite !combine_length; lia).
  match goal with |- exists w, mapM ?f _ = _ /\ _ =>
    destruct (@mapM_enum _ gvar f (fun i w => gbc w = nth i bs (gbc dgv) /\ is_field (garray w) g (nth i os []) (get (nth i var (afull [] 0%R)))) (combine (combine var os) bs) (afull [] 0%R, [], gbc dgv)) as (v & E & HL & H) end.
  { intros i Hi. rewrite combine_nth2 by assumption. cbn [fst snd].
    destruct (@impose_prep g (nth i os []) (get (nth i var (afull [] 0%R))) (nth i bs (gbc dgv)) (mkga (nth i var (afull [] 0%R)) (nth i os []) g)) as (w & Ew & Pw).
    - exact Hw.
    - apply Ho. apply nth_In. lia.
    - apply Hb. apply nth_In. lia.
    - split; [reflexivity|]. split; [apply off_eq_refl|]. split; [apply Ha; apply nth_In; lia | reflexivity].
    - rewrite Ew. eexists. split; [reflexivity|]. split; [reflexivity | exact Pw]. }
  exists v. split; [exact E|]. split; [lia|]. split.
  - apply (list_ext_nth (gbc dgv)); rewrite map_length; [lia|]. intros k Hk. rewrite map_nth. apply (H k dgv). lia.
  - intros i Hi. apply (H i dgv). lia.
Qed.

(* @prop C59 initial_velocity_field without iterations (or with none) puts component i on the faces normal to axis i, holding the i-th function evaluated at the coordinates of those faces, with the i-th boundary condition (periodic when none is given). *)
Lemma initial_velocity_samples_lem : forall g fns fs velocity_bc solve iterations, wfg g ->
  length fns = gndim g -> (forall i, (i < gndim g)%nat -> elementwise (gshape g) (fs i) (nth i fns (fun _ => Err EType))) ->
  let bs := match velocity_bc with None => repeat (periodic_bc (gndim g)) (gndim g) | Some b => b end in
  length bs = gndim g -> (forall b, In b bs -> length (btypes b) = gndim g) -> iterations = None \/ iterations = Some 0%nat ->
  exists v, initial_velocity_field fns g velocity_bc solve iterations = Ok v /\ length v = gndim g /\ map gbc v = bs /\
    forall i, (i < gndim g)%nat ->
      is_field (garray (nth i v dgv)) g (offs i (1 # 2) (cell_center g))
        (fun ix => fs i (map (fun a => coord g (offs i (1 # 2) (cell_center g)) a ix) (seq 0 (gndim g)))).
Proof.
  intros g fns fs velocity_bc solve iterations Hw HLf Hf bs HLb Hb Hit. unfold initial_velocity_field. fold bs. pose proof (faces_len g) as HLo.
  assert (HLc : length (combine (combine fns (cell_faces g)) bs) = gndim g) by (rewrite !combine_length; lia).
  assert (X : exists v, mapM (fun fob => let* a := eval_on_mesh g (fst (fst fob)) (Some (snd (fst fob))) in mk_gvar a (snd fob)) (combine (combine fns (cell_faces g)) bs) = Ok v /\ length v = gndim g /\
    forall i, (i < gndim g)%nat -> gbc (nth i v dgv) = nth i bs (gbc dgv) /\ is_field (garray (nth i v dgv)) g (offs i (1 # 2) (cell_center g))
        (fun ix => fs i (map (fun a => coord g (offs i (1 # 2) (cell_center g)) a ix) (seq 0 (gndim g))))).
  { rewrite <- mapM_enum_snd.
    match goal with |- exists w, mapM ?f _ = _ /\ _ =>
      destruct (@mapM_enum _ gvar f (fun i w => gbc w = nth i bs (gbc dgv) /\ is_field (garray w) g (offs i (1 # 2) (cell_center g))
        (fun ix => fs i (map (fun a => coord g (offs i (1 # 2) (cell_center g)) a ix) (seq 0 (gndim g))))) (combine (combine fns (cell_faces g)) bs) (fun _ => Err EType, [], gbc dgv)) as (v & E & HL & H) end.
    { intros i Hi. rewrite HLc in Hi. rewrite combine_nth2 by lia. cbn [fst snd]. unfold eval_on_mesh.
      destruct (proj1 (@mesh_points_lem g (nth i (cell_faces g) []) Hw) (face_len g Hi)) as (m & Em & HLm & Hm). rewrite Em. cbn [bind].
      destruct (Hf i Hi m) as (a & Ea & Sa & Va).
      - rewrite HLm. reflexivity.
      - intros x Hx. apply (In_nth _ _ (afull [] 0%R)) in Hx. destruct Hx as (k & Hk & <-). apply Hm. lia.
      - rewrite Ea. cbn [bind]. unfold mk_gvar. cbn [ggrid]. rewrite (Hb (nth i bs (gbc dgv))) by (apply nth_In; lia). rewrite Nat.eqb_refl.
        eexists. split; [reflexivity|]. split; [reflexivity|]. split; [reflexivity|]. split; [apply (face_offs g Hi)|]. split; [exact Sa|].
        intros ix Hix. cbn [garray gdata]. rewrite Va by exact Hix. f_equal. apply (list_ext_nth 0%R); rewrite !map_length, ?seq_length; [exact HLm|].
        intros k Hk. rewrite (nth_map' _ _ (afull [] 0%R) 0%R) by exact Hk. rewrite (nth_map' _ _ 0%nat 0%R) by (rewrite seq_length; lia). rewrite seq_nth by lia. cbn [Nat.add].
        destruct (Hm k ltac:(lia)) as (_ & V). rewrite V. unfold coord. rewrite (Qeq_eqR _ _ (off_eq_nth k (face_offs g Hi))). reflexivity. }
    exists v. split; [exact E|]. split; [lia|]. intros i Hi. apply (H i dgv). lia. }
  destruct X as (v & E & HL & H). rewrite E. cbn [bind].
  assert (Hbs : map gbc v = bs) by (apply (list_ext_nth (gbc dgv)); rewrite map_length; [lia|]; intros k Hk; rewrite map_nth; apply H; lia).
  exists v. split; [destruct Hit as [-> | ->]; [reflexivity | apply repeated_result_0]|]. split; [exact HL|]. split; [exact Hbs|]. intros i Hi. apply (H i Hi).
Qed.

(** ** staggered velocities: what the projection does *)
Section Stag.
Variables (g : grid) (bs : list bcs) (solve : list gvar -> gvar -> bcs -> result garr).
Hypothesis (Hd : (0 < gndim g)%nat) (Hw : wfg g) (Hs : solves_poisson g (cell_center g) solve).
Local Notation PV := (periodic_velocity g (cell_center g) bs).
Let Ho : length (cell_center g) = gndim g := cell_center_length g.
Definition div_free v := exists d, divergence v = Ok d /\ is_field d g (cell_center g) (fun _ => 0%R).

Lemma st_len v : PV v -> length v = gndim g.
Proof. intros Hv. exact (pv_len Hv). Qed.
Lemma st_prep v i : PV v -> (i < gndim g)%nat -> prep g (offs i (1 # 2) (cell_center g)) (vval v i) (garray (nth i v dgv)) /\ length (btypes (gbc (nth i v dgv))) = gndim g.
Proof. intros Hv Hi. split; [exact (pv_prep Hd Ho Hv Hi)|]. rewrite (pv_bc Hv Hi), (proj1 (@pv_btypes g (cell_center g) bs Hd Ho v i Hv Hi)). apply repeat_length. Qed.
Lemma st_intro v w F : PV v -> length w = gndim g ->
  (forall i, (i < gndim g)%nat -> gbc (nth i w dgv) = gbc (nth i v dgv) /\ prep g (offs i (1 # 2) (cell_center g)) (F i) (garray (nth i w dgv))) -> PV w.
Proof. intros Hv HL H. apply (@pv_intro g (cell_center g) bs Hd Ho v w F Hv HL). intros i Hi. destruct (H i Hi) as (A & B). split; [rewrite A; exact (pv_bc Hv Hi) | exact B]. Qed.
Lemma st_div v : PV v -> exists d, divergence v = Ok d /\ prep g (cell_center g) (divF g (vval v)) d.
Proof.
  intros Hv. pose proof Hv as (Hpv & _). apply (@div_prep g (cell_center g) (fun i => offs i (1 # 2) (cell_center g)) (vval v) v Hw Hd).
  - split; [exact (pv_len Hv)|]. intros i Hi. split; [exact (pv_prep Hd Ho Hv Hi)|]. exact (proj2 (periodic_vec_pvar Hpv Hi)).
  - intros i Hi. apply (periodic_vval Hpv Hi).
  - intros i Hi. split; [rewrite offs_length; exact Ho|]. eapply off_eq_trans; [apply offs_offs|].
    eapply off_eq_trans; [apply off_eq_offs; [apply off_eq_refl|]; instantiate (1 := 0%Q); reflexivity | apply offs_0].
Qed.
Lemma st_scale v w c : PV v -> PV w -> (forall i ix, (i < gndim g)%nat -> inb (gshape g) ix -> vval w i ix = (c * vval v i ix)%R) -> div_free v -> div_free w.
Proof.
  intros Hv Hvw H (d & Ed & (_ & _ & _ & Z)). destruct (st_div Hv) as (d' & Ed' & (_ & _ & _ & P)). rewrite Ed in Ed'. injection Ed' as <-.
  destruct (st_div Hvw) as (e & Ee & Pe). exists e. split; [exact Ee|]. eapply prep_ext; [|exact Pe]. intros ix Hix.
  pose proof Hv as (Hpv & _). pose proof Hvw as (Hpw & _).
  assert (Hall : forall i jx, (i < gndim g)%nat -> length jx = gndim g -> vval w i jx = (c * vval v i jx)%R).
  { intros i jx Hi. revert jx. apply (@periodic_ext_all (gshape g) (vval w i) (fun ix => c * vval v i ix)%R).
    - apply Hw.
    - apply (periodic_vval Hpw Hi).
    - intros jx HLx. rewrite (periodic_vval Hpv Hi) by auto. reflexivity.
    - intros jx Hj. apply H; auto. }
  transitivity (c * divF g (vval v) ix)%R; [|rewrite <- P, Z by exact Hix; ring].
  unfold divF. rewrite <- nsum_scal. apply nsum_ext. intros i Hi. pose proof (inb_length _ _ Hix) as HLx. unfold bdF. rewrite !Hall by (auto; rewrite shiftix_length; exact HLx). unfold Rdiv. ring.
Qed.
Lemma st_project v : PV v -> exists w, projection solve v = Ok w /\ PV w /\ div_free w.
Proof.
  intros Hv. destruct (@projection_pv g (cell_center g) bs Hd Ho solve v Hv (solves_is_solver Hs)) as (w & E & Hvw & _).
  destruct (@projection_div g (cell_center g) bs Hd Ho solve v Hv Hs) as (w' & d & E' & Ed & Z). rewrite E in E'. injection E' as <-.
  exists w. split; [exact E|]. split; [exact Hvw|]. exists d. auto.
Qed.
Lemma st_fix v w : PV v -> div_free v -> projection solve v = Ok w -> forall i ix, (i < gndim g)%nat -> inb (gshape g) ix -> vval w i ix = vval v i ix.
Proof.
  intros Hv (d & Ed & (_ & _ & _ & Z)) E i ix Hi Hix. pose proof Hv as (Hpv & _ & Hf & _).
  destruct (pressure_bc_periodic Hd Hpv) as (b & Eb & Hb). destruct (@projection_const g (cell_center g) Hd Ho solve v b Hw Hpv Eb Hb) as (q0 & Ep).
  destruct (Hs q0 Hpv Hf Hb Eb) as (q & dv & lq & Eq & Q1 & Q2 & Q3 & Ed' & El & (Sl & Hae)). rewrite Ed in Ed'. injection Ed' as <-.
  assert (Hpq : periodic_field (mkgv q b)) by (split; [exact Q1 | cbn [garray gbc]; rewrite Q2; exact Hb]).
  destruct (@lap_prep _ _ _ (mkgv q b) (pf_wfg Hpq) (pf_per Hpq) (pf_off Hpq) (pf_pvar Hpq)) as (lw & Ew & (_ & _ & S & _)).
  rewrite El in Ew. injection Ew as <-. cbn [garray] in S. rewrite Q2 in S.
  destruct (@projection_fixes_divergence_free_lem g (fun _ => true) v (fun _ _ _ => solve v q0 b) q b d lq Hd Hw (periodic_box Hpv Hf) Eb) as (v' & Ev' & HF); auto.
  { intros jx Hj. apply Hae. rewrite S. exact Hj. }
  rewrite <- Ep, E in Ev'. injection Ev' as <-.
  assert (Hi' : (i < length v)%nat) by (rewrite (pv_len Hv); exact Hi).
  pose proof (Forall2_nth' dgv dgv HF Hi') as ((_ & _ & _ & V) & _).
  destruct (@projection_pv g (cell_center g) bs Hd Ho solve v Hv (solves_is_solver Hs)) as (w' & E' & Hvw & _). rewrite E in E'. injection E' as <-.
  destruct (pv_prep Hd Ho Hv Hi) as (_ & _ & Sv & Pv). destruct (pv_prep Hd Ho Hvw Hi) as (_ & _ & Sw & Pw).
  rewrite <- Pv, <- Pw by exact Hix. apply V. rewrite ?Sv, ?Sw. exact Hix.
Qed.
Lemma st_momentum v w : PV v -> projection solve v = Ok w -> forall i, momentum w i = momentum v i.
Proof.
  intros Hv E. destruct (@projection_pv g (cell_center g) bs Hd Ho solve v Hv (solves_is_solver Hs)) as (w' & E' & _ & H). rewrite E in E'. injection E' as <-. exact H.
Qed.
(** repeated projection *)
Lemma st_iter v w : PV v -> projection solve v = Ok w -> forall k, exists r, repeated_result (projection solve) (S k) v = Ok r /\ PV r /\ div_free r /\
  forall i ix, (i < gndim g)%nat -> inb (gshape g) ix -> vval r i ix = vval w i ix.
Proof.
  intros Hv Ew k. revert v w Hv Ew. induction k as [|k IH]; intros v w Hv Ew; destruct (st_project Hv) as (w' & Ew' & Vw & Dw); rewrite Ew in Ew'; injection Ew' as <-.
  - rewrite repeated_result_S, Ew. cbn [bind]. rewrite repeated_result_0. exists w. auto.
  - rewrite repeated_result_S, Ew. cbn [bind]. destruct (st_project Vw) as (w2 & Ew2 & Vw2 & Dw2). pose proof (st_fix Vw Dw Ew2) as Hfix.
    destruct (IH w w2 Vw Ew2) as (r & Er & Vr & Dr & Hr). exists r. split; [exact Er|]. split; [exact Vr|]. split; [exact Dr|].
    intros i ix Hi Hix. rewrite Hr, Hfix by auto. reflexivity.
Qed.
End Stag.

(** a list of fields on the faces with homogeneous periodic boundary conditions is a velocity *)
Lemma pv_new g bs w F : wfg g -> length w = gndim g -> length bs = gndim g -> (forall b, In b bs -> perbc g b /\ bhom b = true) -> map gbc w = bs ->
  (forall i, (i < gndim g)%nat -> prep g (offs i (1 # 2) (cell_center g)) (F i) (garray (nth i w dgv))) -> periodic_velocity g (cell_center g) bs w.
Proof.
  intros Hw HL HLb Hb Eb H.
  assert (B : forall i, (i < gndim g)%nat -> gbc (nth i w dgv) = nth i bs (gbc dgv)) by (intros i Hi; rewrite <- Eb, map_nth; reflexivity).
  split; [|split; [|split; [|exact Eb]]].
  - split; [exact HL|]. apply Forall_forall. intros x Hx. apply (In_nth _ _ dgv) in Hx. destruct Hx as (i & Hi & <-). rewrite HL in Hi.
    destruct (H i Hi) as (G1 & G2 & G3 & _). split; [|exact G1]. split; [split; [rewrite G1; exact Hw|]; split; [congruence|]|].
    + rewrite (off_eq_length G2), offs_length, G1. apply cell_center_length.
    + rewrite G1, (B i Hi). apply Hb. apply nth_In. lia.
  - apply Forall_forall. intros x Hx. apply (In_nth _ _ dgv) in Hx. destruct Hx as (i & Hi & <-). rewrite HL in Hi. rewrite (B i Hi). apply Hb. apply nth_In. lia.
  - intros i u Hu. assert (Hi : (i < gndim g)%nat) by (rewrite <- HL; apply nth_error_Some; congruence).
    destruct (H i Hi) as (_ & G2 & _). rewrite (nth_error_nth _ _ _ Hu) in G2. exact G2.
Qed.
Lemma pv_vval g bs w F : (0 < gndim g)%nat -> periodic_velocity g (cell_center g) bs w -> (forall i, (i < gndim g)%nat -> prep g (offs i (1 # 2) (cell_center g)) (F i) (garray (nth i w dgv))) ->
  forall i ix, (i < gndim g)%nat -> inb (gshape g) ix -> vval w i ix = F i ix.
Proof.
  intros Hd Hv H i ix Hi Hix. destruct (H i Hi) as (_ & _ & _ & A). destruct (pv_prep Hd (cell_center_length g) Hv Hi) as (_ & _ & _ & B). rewrite <- A, <- B by exact Hix. reflexivity.
Qed.

(* @prop C59 initial_velocity_field with one or more projection iterations, homogeneous periodic boundary conditions and a pressure solver of the Poisson equation (any dimension): the result is a staggered velocity with those boundary conditions and zero divergence in every cell; it is the single projection of the sampled field whatever the number of iterations; and it has the total momentum of the sampled field. *)
Lemma initial_velocity_projected_lem : forall g fns fs bs solve k, (0 < gndim g)%nat -> wfg g ->
  length fns = gndim g -> (forall i, (i < gndim g)%nat -> elementwise (gshape g) (fs i) (nth i fns (fun _ => Err EType))) ->
  length bs = gndim g -> (forall b, In b bs -> perbc g b /\ bhom b = true) -> solves_poisson g (cell_center g) solve ->
  exists v0 w v d, initial_velocity_field fns g (Some bs) solve None = Ok v0 /\ projection solve v0 = Ok w /\
    initial_velocity_field fns g (Some bs) solve (Some (S k)) = Ok v /\ periodic_velocity g (cell_center g) bs v /\
    divergence v = Ok d /\ is_field d g (cell_center g) (fun _ => 0%R) /\
    (forall i ix, (i < gndim g)%nat -> inb (gshape g) ix -> vval v i ix = vval w i ix) /\
    (forall i, momentum v i = momentum v0 i).
Proof.
  intros g fns fs bs solve k Hd Hw HLf Hf HLb Hb Hs.
  destruct (@initial_velocity_samples_lem g fns fs (Some bs) solve None Hw HLf Hf HLb) as (v0 & E0 & HL0 & B0 & P0).
  { intros b Hin. rewrite (proj1 (Hb b Hin)). apply repeat_length. } { left; reflexivity. }
  assert (V0 : periodic_velocity g (cell_center g) bs v0) by exact (@pv_new g bs v0 _ Hw HL0 HLb Hb B0 P0).
  destruct (@st_project g bs solve Hd Hs v0 V0) as (w & Ew & Vw & Dw).
  destruct (@st_iter g bs solve Hd Hw Hs v0 w V0 Ew k) as (v & Ev & Vv & (d & Ed & Zd) & Hv).
  exists v0, w, v, d. split; [exact E0|]. split; [exact Ew|]. split.
  { unfold initial_velocity_field in E0 |- *. match goal with |- bind ?m _ = _ => destruct m as [x|e] end; cbn [bind] in E0 |- *; [injection E0 as ->; exact Ev | discriminate]. }
  split; [exact Vv|]. split; [exact Ed|]. split; [exact Zd|]. split; [exact Hv|].
  intros i. rewrite <- (@st_momentum g bs solve Hd Hs v0 w V0 Ew i). destruct (Nat.lt_ge_cases i (gndim g)) as [Hi|Hi].
  - rewrite (@momentum_pv g (cell_center g) bs Hd (cell_center_length g) v i Vv Hi), (@momentum_pv g (cell_center g) bs Hd (cell_center_length g) w i Vw Hi). apply asum_ext. intros ix Hix. apply Hv; auto.
  - rewrite !momentum_out by (rewrite ?(pv_len Vv), ?(pv_len Vw); exact Hi). reflexivity.
Qed.

(** ** filtered noise *)
Definition density_of (peak : R) (d : nat) : R -> R := fun k => (log_normal_pdf k peak (1 / 4) / k ^ (d - 1))%R.
Lemma filtered_ok noise g peak : wfg g -> (forall i, (i < gndim g)%nat -> shp (noise i) = gshape g) ->
  exists c, filtered_components noise g peak = Ok c /\ length c = gndim g /\
    forall i, (i < gndim g)%nat -> shp (nth i c (afull [] 0%R)) = gshape g /\
      (forall kx, inb (gshape g) kx -> coefficient (nth i c (afull [] 0%R)) kx = Cscal (filter_factor (density_of peak (gndim g)) g kx) (coefficient (noise i) kx)) /\
      total (nth i c (afull [] 0%R)) = 0%R.
Proof.
  intros Hw Hn. unfold filtered_components. cbv zeta.
  match goal with |- exists w, mapM ?f _ = _ /\ _ =>
    destruct (@mapM_seq (arr R) f (fun i b => shp b = gshape g /\
      (forall kx, inb (gshape g) kx -> coefficient b kx = Cscal (filter_factor (density_of peak (gndim g)) g kx) (coefficient (noise i) kx)) /\ total b = 0%R) (gndim g)) as (c & E & HL & H) end.
  { intros i Hi. destruct (@spectral_filter_spec_lem (density_of peak (gndim g)) (noise i) g Hw (Hn i Hi)) as (b & Eb & Sb & Cb & Tb). exists b. auto. }
  exists c. split; [exact E|]. split; [exact HL|]. intros i Hi. apply H. exact Hi.
Qed.
Lemma spectrum_density peak d k : (0 < peak)%R -> (0 < d)%nat -> (0 < k)%R -> density_of peak d k = initial_spectrum peak d k.
Proof.
  intros Hp Hd Hk. unfold density_of, initial_spectrum, log_normal_pdf. cbv zeta. destruct d as [|d]; [lia|]. rewrite Nat.sub_succ, Nat.sub_0_r.
  replace (- (ln peak + 1 / 4 - ln k) ^ 2 / 2 / (1 / 4) - ln k)%R with (- 2 * (ln (k / peak) - 1 / 4) ^ 2 + - ln k)%R.
  - rewrite exp_plus, exp_Ropp, exp_ln by exact Hk. cbn [pow]. assert (k ^ d <> 0)%R by (apply pow_nonzero; lra). field. lra.
  - unfold Rdiv at 1. rewrite ln_mult, ln_Rinv by (auto using Rinv_0_lt_compat). field.
Qed.
Lemma spectrum_factor peak g kx : (0 < peak)%R -> (0 < gndim g)%nat -> filter_factor (density_of peak (gndim g)) g kx = filter_factor (initial_spectrum peak (gndim g)) g kx.
Proof. intros Hp Hd. unfold filter_factor. destruct (Rlt_dec 0 _) as [H|H]; [apply spectrum_density; auto | reflexivity]. Qed.
Lemma coefficient_ext a b kx : shp a = shp b -> (forall ix, inb (shp a) ix -> get a ix = get b ix) -> inb (shp a) kx -> coefficient a kx = coefficient b kx.
Proof.
  intros Hs H Hk. pose proof (inb_length _ _ Hk) as HL. unfold coefficient. rewrite (proj2 (fftn_kron (amap RtoC a))), (proj2 (fftn_kron (amap RtoC b))) by (cbn [amap shp]; congruence).
  cbn [amap shp]. rewrite <- Hs. apply (kron_ext C0 Cadd Cmul); [rewrite map_length; reflexivity | | exact Hk]. intros ix Hix. cbn [amap get]. rewrite H by exact Hix. reflexivity.
Qed.
Lemma momentum_scaled g (V : list gvar -> Prop) os v w c i : (forall v, V v -> length v = gndim g) ->
  (forall v i, V v -> (i < gndim g)%nat -> prep g (os i) (vval v i) (garray (nth i v dgv)) /\ length (btypes (gbc (nth i v dgv))) = gndim g) ->
  V v -> V w -> (forall i ix, (i < gndim g)%nat -> inb (gshape g) ix -> vval w i ix = (c * vval v i ix)%R) -> momentum w i = (c * momentum v i)%R.
Proof.
  intros HL HP Hv Hw H. destruct (Nat.lt_ge_cases i (gndim g)) as [Hi|Hi].
  - rewrite !momentum_nth by (rewrite ?(HL _ Hv), ?(HL _ Hw); exact Hi). rewrite (total_is (proj1 (HP w i Hw Hi))), (total_is (proj1 (HP v i Hv Hi))).
    rewrite <- asum_scal. apply asum_ext. intros ix Hix. apply H; auto.
  - rewrite !momentum_out by (rewrite ?(HL _ Hv), ?(HL _ Hw); exact Hi). ring.
Qed.

Lemma perbc_repeat g : forall b, In b (repeat (periodic_bc (gndim g)) (gndim g)) -> perbc g b /\ bhom b = true.
Proof. intros b Hb. apply repeat_spec in Hb. subst b. split; reflexivity. Qed.
(** the filtered noise as a staggered velocity *)
Lemma filtered_velocity solve noise g M peak : (0 < gndim g)%nat -> wfg g -> (0 < peak)%R -> (forall i, (i < gndim g)%nat -> shp (noise i) = gshape g) ->
  exists v0, (forall k, filtered_velocity_field solve noise g M peak k = repeated_result (project_and_normalize (projection solve) M) k v0) /\
    periodic_velocity g (cell_center g) (repeat (periodic_bc (gndim g)) (gndim g)) v0 /\
    forall i, (i < gndim g)%nat -> momentum v0 i = 0%R /\ forall kx, inb (gshape g) kx ->
      coefficient (gdata (garray (nth i v0 dgv))) kx = Cscal (filter_factor (initial_spectrum peak (gndim g)) g kx) (coefficient (noise i) kx).
Proof.
  intros Hd Hw Hp Hn. destruct (@filtered_ok noise g peak Hw Hn) as (c & Ec & HLc & Hc).
  destruct (@wrap_variables_periodic_lem g c (repeat (periodic_bc (gndim g)) (gndim g)) None Hw) as (v0 & E0 & HL0 & B0 & P0).
  { rewrite faces_len. exact HLc. } { rewrite faces_len, repeat_length. reflexivity. }
  { intros a Ha. apply (In_nth _ _ (afull [] 0%R)) in Ha. destruct Ha as (i & Hi & <-). apply Hc. lia. }
  { intros o Ho. apply (In_nth _ _ []) in Ho. destruct Ho as (i & Hi & <-). rewrite faces_len in Hi. apply face_len. exact Hi. }
  { intros b Hb. apply (perbc_repeat _ _ Hb). }
  cbv zeta in P0. rewrite HLc in *. 
  assert (P : forall i, (i < gndim g)%nat -> prep g (offs i (1 # 2) (cell_center g)) (get (nth i c (afull [] 0%R))) (garray (nth i v0 dgv))).
  { intros i Hi. eapply prep_off; [|exact (P0 i Hi)]. apply (face_offs g Hi). }
  exists v0. split; [|split].
  - intros k. unfold filtered_velocity_field. rewrite Ec. cbn [bind]. rewrite E0. reflexivity.
  - exact (@pv_new g _ v0 _ Hw HL0 (repeat_length _ _) (perbc_repeat g) B0 P).
  - intros i Hi. destruct (Hc i Hi) as (S & C & T). destruct (P i Hi) as (_ & _ & S' & V). split.
    + rewrite momentum_nth by lia. rewrite (total_is (P i Hi)). unfold total in T. rewrite S in T. exact T.
    + intros kx Hk. rewrite <- (spectrum_factor g kx Hp Hd), <- C by exact Hk. apply coefficient_ext; [congruence| |rewrite S'; exact Hk].
      intros ix Hix. apply V. rewrite <- S'. exact Hix.
Qed.

(* @prop C59 filtered_velocity_field, for every noise, any dimension, every positive maximum velocity and peak wave number and a pressure solver of the Poisson equation. Without iterations it is the noise filtered by the log-normal spectrum (Fourier coefficient by Fourier coefficient), on the cell faces with periodic boundary conditions and zero momentum. With one or more iterations, if the projection of the filtered noise is not zero, the result is that projection rescaled, whatever the number of iterations: zero divergence in every cell, largest speed exactly maximum_velocity, zero momentum, periodic boundary conditions. (If the projection is zero everywhere the code divides zero by zero.) *)
Lemma filtered_velocity_field_spec_lem : forall g noise solve M peak k, (0 < gndim g)%nat -> wfg g -> (0 < peak)%R -> (0 < M)%R ->
  (forall i, (i < gndim g)%nat -> shp (noise i) = gshape g) -> solves_poisson g (cell_center g) solve ->
  let bs := repeat (periodic_bc (gndim g)) (gndim g) in
  exists v0 w, filtered_velocity_field solve noise g M peak 0 = Ok v0 /\ periodic_velocity g (cell_center g) bs v0 /\
    (forall i u kx, nth_error v0 i = Some u -> inb (gshape g) kx ->
       coefficient (gdata (garray u)) kx = Cscal (filter_factor (initial_spectrum peak (gndim g)) g kx) (coefficient (noise i) kx)) /\
    (forall i, momentum v0 i = 0%R) /\ projection solve v0 = Ok w /\
    ((exists i ix, (i < gndim g)%nat /\ inb (gshape g) ix /\ vval w i ix <> 0%R) ->
      exists m v d, is_max_speed g w m /\ (0 < m)%R /\ filtered_velocity_field solve noise g M peak (S k) = Ok v /\
        (forall i ix, (i < gndim g)%nat -> inb (gshape g) ix -> vval v i ix = (M / m * vval w i ix)%R) /\
        periodic_velocity g (cell_center g) bs v /\ divergence v = Ok d /\ is_field d g (cell_center g) (fun _ => 0%R) /\
        is_max_speed g v M /\ forall i, momentum v i = 0%R) /\
    ((forall i ix, (i < gndim g)%nat -> inb (gshape g) ix -> vval w i ix = 0%R) -> filtered_velocity_field solve noise g M peak (S k) = Err EZeroDiv).
Proof.
  intros g noise solve M peak k Hd Hw Hp HM Hn Hs bs.
  destruct (@filtered_velocity solve noise g M peak Hd Hw Hp Hn) as (v0 & E0 & V0 & H0).
  destruct (@st_project g bs solve Hd Hs v0 V0) as (w & Ew & Vw & Dw).
  assert (Mom0 : forall i, momentum v0 i = 0%R).
  { intros i. destruct (Nat.lt_ge_cases i (gndim g)) as [Hi|Hi]; [apply (H0 i Hi)|]. apply momentum_out. rewrite (pv_len V0). exact Hi. }
  exists v0, w. split; [rewrite E0; apply repeated_result_0|]. split; [exact V0|]. split.
  { intros i u kx Hu Hk. assert (Hi : (i < gndim g)%nat) by (rewrite <- (pv_len V0); apply nth_error_Some; congruence).
    destruct (H0 i Hi) as (_ & C). specialize (C kx Hk). rewrite (nth_error_nth _ _ _ Hu) in C. exact C. }
  split; [exact Mom0|]. split; [exact Ew|]. rewrite E0. split.
  - intros (i & ix & Hi & Hix & Hnz).
    destruct (@max_speed_ok g (fun i => offs i (1 # 2) (cell_center g)) _ Hd Hw (@st_len g bs) (@st_prep g bs Hd) w Vw) as (m & _ & Hm).
    assert (Hpos : (0 < m)%R).
    { apply Rlt_le_trans with (speed w ix); [|apply Hm; exact Hix]. unfold speed. apply sqrt_lt_R0. rewrite (pv_len Vw).
      destruct (Rle_lt_or_eq_dec 0 (nsum (gndim g) (fun i => vval w i ix ^ 2)%R)) as [L|Z]; [|exact L|].
      - apply nsum_nonneg. intros; apply pow2_ge_0.
      - exfalso. apply Hnz. pose proof (@nsum_nonneg_0 (gndim g) (fun i => vval w i ix ^ 2)%R ltac:(intros; apply pow2_ge_0) (eq_sym Z) i Hi) as X. cbv beta in X.
        apply Rsqr_0_uniq. rewrite Rsqr_pow2. exact X. }
    destruct (@pn_iter g (fun i => offs i (1 # 2) (cell_center g)) (periodic_velocity g (cell_center g) bs) (div_free g) (projection solve) M Hd Hw HM (@st_len g bs) (@st_prep g bs Hd) (@st_intro g bs Hd)
       (@st_scale g bs Hd Hw) (@st_project g bs solve Hd Hs) (@st_fix g bs solve Hd Hw Hs) v0 w m V0 Ew Vw Dw Hm Hpos k) as (v & Ev & Vv & (d & Ed & Zd) & Mv & Hv).
    exists m, v, d. split; [exact Hm|]. split; [exact Hpos|]. split; [exact Ev|]. split; [exact Hv|]. split; [exact Vv|]. split; [exact Ed|]. split; [exact Zd|]. split; [exact Mv|].
    intros j. rewrite (@momentum_scaled g (periodic_velocity g (cell_center g) bs) (fun i => offs i (1 # 2) (cell_center g)) w v (M / m)%R j (@st_len g bs) (@st_prep g bs Hd) Vw Vv Hv).
    rewrite (@st_momentum g bs solve Hd Hs v0 w V0 Ew j), Mom0. ring.
  - intros Z. exact (@pn_zero g (fun i => offs i (1 # 2) (cell_center g)) (periodic_velocity g (cell_center g) bs) (projection solve) M Hd Hw (@st_len g bs) (@st_prep g bs Hd) v0 w V0 Ew Vw Z k).
Qed.

(* @prop C59 On a one-dimensional grid filtered_velocity_field with one or more iterations never returns a velocity: the projection of a field without mean is zero, and the normalisation divides zero by zero. *)
Lemma filtered_velocity_field_1d_lem : forall g noise solve M peak k, gndim g = 1%nat -> wfg g -> (0 < peak)%R -> (0 < M)%R ->
  shp (noise 0%nat) = gshape g -> solves_poisson g (cell_center g) solve -> filtered_velocity_field solve noise g M peak (S k) = Err EZeroDiv.
Proof.
  intros g noise solve M peak k H1 Hw Hp HM Hn Hs. assert (Hd : (0 < gndim g)%nat) by lia.
  destruct (@filtered_velocity solve noise g M peak Hd Hw Hp) as (v0 & E0 & V0 & H0). { intros i Hi. replace i with 0%nat by lia. exact Hn. }
  set (bs := repeat (periodic_bc (gndim g)) (gndim g)) in *.
  destruct (@st_project g bs solve Hd Hs v0 V0) as (w & Ew & Vw & (d & Ed & (_ & _ & _ & Zd))).
  rewrite E0. apply (@pn_zero g (fun i => offs i (1 # 2) (cell_center g)) (periodic_velocity g (cell_center g) bs) (projection solve) M Hd Hw (@st_len g bs) (@st_prep g bs Hd) v0 w V0 Ew Vw).
  destruct (@st_div g bs Hd Hw w Vw) as (d' & Ed' & (_ & _ & _ & P)). rewrite Ed in Ed'. injection Ed' as <-.
  assert (Mom : momentum w 0 = 0%R) by (rewrite (@st_momentum g bs solve Hd Hs v0 w V0 Ew 0%nat); apply (H0 0%nat Hd)).
  rewrite (@momentum_pv g (cell_center g) bs Hd (cell_center_length g) w 0 Vw Hd) in Mom.
  pose proof Vw as (Hpw & _). assert (Hper : periodic (gshape g) (vval w 0)) by (apply (periodic_vval Hpw Hd)).
  assert (Hh : hstep g 0 <> 0%R) by (apply (hstep_nz Hw Hd)).
  assert (Hstep : forall ix, length ix = 1%nat -> vval w 0 (shiftix 0 (-1) ix) = vval w 0 ix).
  { intros ix HL. assert (HLs : length (gshape g) = 1%nat) by exact H1.
    assert (Z : divF g (vval w) (wrap (gshape g) ix) = 0%R).
    { assert (Hin : inb (gshape g) (wrap (gshape g) ix)) by (apply inb_wrap; [apply Hw | congruence]). rewrite <- P, Zd by exact Hin. reflexivity. }
    unfold divF in Z. rewrite H1 in Z. unfold nsum, lsum in Z. cbn [seq map fold_right] in Z.
    assert (Z' : bdF g 0 (vval w 0) ix = 0%R).
    { rewrite <- (periodic_bdF g 0 Hper ix) by congruence. lra. }
    unfold bdF in Z'. assert (X : (vval w 0 ix - vval w 0 (shiftix 0 (-1) ix) = 0)%R).
    { transitivity (hstep g 0 * ((vval w 0 ix - vval w 0 (shiftix 0 (-1) ix)) / hstep g 0))%R; [field; exact Hh | rewrite Z'; ring]. }
    lra. }
  assert (Hconst : forall n : nat, vval w 0 [Z.of_nat n] = vval w 0 [0]).
  { induction n as [|n IH]; [reflexivity|]. rewrite <- (Hstep [Z.of_nat (S n)] eq_refl). unfold shiftix. cbn [nth upd]. replace (Z.of_nat (S n) + -1) with (Z.of_nat n) by lia. exact IH. }
  assert (Hall : forall ix, inb (gshape g) ix -> vval w 0 ix = vval w 0 [0]).
  { intros ix Hix. pose proof (inb_length _ _ Hix) as HL. unfold gndim in H1. rewrite H1 in HL. destruct ix as [|i [|j ix]]; cbn in HL; try lia.
    destruct (gshape g) as [|n s]; [cbn in H1; lia|]. cbn [inb] in Hix. rewrite <- (Hconst (Z.to_nat i)). rewrite Z2Nat.id by lia. reflexivity. }
  rewrite (@asum_ext _ _ (fun _ => vval w 0 [0])) in Mom by exact Hall.
  assert (HA : (0 < asum (gshape g) (fun _ => 1%R))%R).
  { destruct (gshape g) as [|n [|m s]] eqn:Es; try (unfold gndim in H1; rewrite Es in H1; cbn in H1; lia). change (0 < rsum n (fun _ => 1%R))%R.
    rewrite rsum_const. rewrite Rmult_1_r. apply lt_0_INR. destruct Hw as (_ & _ & Ha & _). rewrite Es in Ha. inversion Ha; subst; auto. }
  assert (C0' : vval w 0 [0] = 0%R).
  { rewrite (@asum_ext _ _ (fun _ => vval w 0 [0%Z] * 1)%R) in Mom by (intros; ring). rewrite asum_scal in Mom. apply Rmult_integral in Mom. destruct Mom; lra. }
  intros i ix Hi Hix. replace i with 0%nat by lia. rewrite Hall by exact Hix. exact C0'.
Qed.

(** ** collocated velocities *)
Section Coll.
Variables (g : grid) (bs : list bcs) (solve : list gvar -> gvar -> result garr).
Hypothesis (Hd : (0 < gndim g)%nat) (Hw : wfg g) (Hs : solves_centred_poisson g (cell_center g) solve).
Local Notation CV := (collocated_velocity g (cell_center g) bs).
Let Ho : length (cell_center g) = gndim g := cell_center_length g.
Definition cdiv_free v := exists d, centered_divergence v = Ok d /\ is_field d g (cell_center g) (fun _ => 0%R).
Lemma co_len v : CV v -> length v = gndim g.
Proof. intros (Hv & _). apply Hv. Qed.
Lemma co_prep v i : CV v -> (i < gndim g)%nat -> prep g (cell_center g) (vval v i) (garray (nth i v dgv)) /\ length (btypes (gbc (nth i v dgv))) = gndim g.
Proof. intros (Hv & _ & Hc & _) Hi. destruct (@col_prep g (cell_center g) v i Hv Hc Hi) as (P & B). split; [exact P|]. rewrite B. apply repeat_length. Qed.
Lemma co_intro v w F : CV v -> length w = gndim g ->
  (forall i, (i < gndim g)%nat -> gbc (nth i w dgv) = gbc (nth i v dgv) /\ prep g (cell_center g) (F i) (garray (nth i w dgv))) -> CV w.
Proof. intros (Hv & Hh & Hc & Hb) HL H. destruct (@cv_intro g (cell_center g) v w F Hd Ho Hv Hh HL H) as (A & B & C & D). rewrite Hb in D. split; auto. Qed.
Lemma co_div v : CV v -> exists d, centered_divergence v = Ok d /\ prep g (cell_center g) (cdivF g (vval v)) d.
Proof.
  intros (Hv & Hh & Hc & Hb). apply (@cdiv_prep g (cell_center g) (fun _ => cell_center g) (vval v) v Hw Hd).
  - split; [apply Hv|]. intros i Hi. apply (@col_prep g (cell_center g) v i Hv Hc Hi).
  - intros i Hi. apply (periodic_vval Hv Hi).
  - intros i Hi. split; [exact Ho | apply off_eq_refl].
Qed.
Lemma co_scale v w c : CV v -> CV w -> (forall i ix, (i < gndim g)%nat -> inb (gshape g) ix -> vval w i ix = (c * vval v i ix)%R) -> cdiv_free v -> cdiv_free w.
Proof.
  intros Hv Hvw H (d & Ed & (_ & _ & _ & Z)). destruct (co_div Hv) as (d' & Ed' & (_ & _ & _ & P)). rewrite Ed in Ed'. injection Ed' as <-.
  destruct (co_div Hvw) as (e & Ee & Pe). exists e. split; [exact Ee|]. eapply prep_ext; [|exact Pe]. intros ix Hix.
  pose proof Hv as (Hpv & _). pose proof Hvw as (Hpw & _).
  assert (Hall : forall i jx, (i < gndim g)%nat -> length jx = gndim g -> vval w i jx = (c * vval v i jx)%R).
  { intros i jx Hi. revert jx. apply (@periodic_ext_all (gshape g) (vval w i) (fun ix => c * vval v i ix)%R).
    - apply Hw.
    - apply (periodic_vval Hpw Hi).
    - intros jx HLx. rewrite (periodic_vval Hpv Hi) by auto. reflexivity.
    - intros jx Hj. apply H; auto. }
  transitivity (c * cdivF g (vval v) ix)%R; [|rewrite <- P, Z by exact Hix; ring].
  unfold cdivF. rewrite <- nsum_scal. apply nsum_ext. intros i Hi. pose proof (inb_length _ _ Hix) as HLx. unfold cdF. rewrite !Hall by (auto; rewrite shiftix_length; exact HLx). unfold Rdiv. ring.
Qed.
Lemma co_calc v : CV v -> exists q w d, col_projection solve v = Ok w /\ wf_garr q /\ ggrid q = g /\
  (forall ix, inb (gshape g) ix -> centred_laplacian g (pval q) ix = centred_div g (vval v) ix) /\ CV w /\
  (forall i ix, (i < gndim g)%nat -> inb (gshape g) ix -> vval w i ix = (vval v i ix - centred_difference g i (pval q) ix)%R) /\
  centered_divergence w = Ok d /\ is_field d g (cell_center g) (fun _ => 0%R).
Proof.
  intros (Hv & Hh & Hc & Hb). destruct (Hs Hv Hc) as (q & Eq & Q1 & Q2 & Q3 & Q4).
  destruct (@collocated_projection_lem g (cell_center g) v solve q Hd Ho Hv Hc Eq Q1 Q2 Q3 Q4) as (w & d & E & Hpw & Hcw & Bw & Vw & Ed & Zd & _).
  exists q, w, d. split; [exact E|]. split; [exact Q1|]. split; [exact Q2|]. split; [exact Q4|]. split; [|auto].
  split; [exact Hpw|]. split; [|split; [exact Hcw | congruence]].
  unfold homogeneous_vec in *. rewrite Forall_forall in *. intros u Hu. apply (in_map gbc) in Hu. rewrite Bw in Hu. apply in_map_iff in Hu. destruct Hu as (x & <- & Hx). auto.
Qed.
Lemma co_project v : CV v -> exists w, col_projection solve v = Ok w /\ CV w /\ cdiv_free w.
Proof. intros Hv. destruct (co_calc Hv) as (q & w & d & E & _ & _ & _ & Vw & _ & Ed & Zd). exists w. split; [exact E|]. split; [exact Vw|]. exists d. auto. Qed.
Lemma sum_cdF a F : periodic (gshape g) F -> asum (gshape g) (cdF g a F) = 0%R.
Proof.
  intros HF. pose proof (@csbp g a (fun _ => 1%R) F (proj1 (proj2 (proj2 Hw)))) as X.
  rewrite (@asum_ext _ _ (fun ix => 1 * cdF g a F ix)%R) by (intros; ring). rewrite X; [|intros ix _; reflexivity | exact HF].
  rewrite (@asum_ext _ _ (fun _ => 0%R)); [rewrite asum_0; ring|]. intros ix _. unfold cdF, Rdiv. ring.
Qed.
Lemma q_per (q : garr) : wf_garr q -> ggrid q = g -> periodic (gshape g) (pval q).
Proof. intros (_ & S & _) Hg. rewrite <- Hg, <- S. apply periodic_pval. Qed.
Lemma co_momentum v w : CV v -> col_projection solve v = Ok w -> forall i, momentum w i = momentum v i.
Proof.
  intros Hv E i. destruct (co_calc Hv) as (q & w' & d & E' & Q1 & Q2 & _ & Vw & Hval & _). rewrite E in E'. injection E' as <-.
  destruct (Nat.lt_ge_cases i (gndim g)) as [Hi|Hi].
  - rewrite !momentum_nth by (rewrite ?(co_len Hv), ?(co_len Vw); exact Hi). rewrite (total_is (proj1 (co_prep Hv Hi))), (total_is (proj1 (co_prep Vw Hi))).
    rewrite (@asum_ext _ _ (fun ix => vval v i ix - cdF g i (pval q) ix)%R) by (intros ix Hix; apply Hval; auto). rewrite asum_minus, (sum_cdF i (q_per Q1 Q2)). ring.
  - rewrite !momentum_out by (rewrite ?(co_len Hv), ?(co_len Vw); exact Hi). reflexivity.
Qed.
Lemma co_fix v w : CV v -> cdiv_free v -> col_projection solve v = Ok w -> forall i ix, (i < gndim g)%nat -> inb (gshape g) ix -> vval w i ix = vval v i ix.
Proof.
  intros Hv (e & Ee & (_ & _ & _ & Z)) E. destruct (co_calc Hv) as (q & w' & d & E' & Q1 & Q2 & Q4 & Vw & Hval & _). rewrite E in E'. injection E' as <-.
  destruct (co_div Hv) as (e' & Ee' & (_ & _ & _ & P)). rewrite Ee in Ee'. injection Ee' as <-.
  pose proof (q_per Q1 Q2) as Hq. pose proof (proj1 (proj2 (proj2 Hw))) as Hpos.
  pose proof (@csbp_all g (pval q) (fun a => cdF g a (pval q)) Hpos Hq ltac:(intros; apply periodic_cdF; exact Hq)) as X.
  rewrite (@asum_ext _ _ (fun _ => 0%R)) in X.
  2:{ intros ix Hix. change (cdivF g (fun a => cdF g a (pval q)) ix) with (centred_laplacian g (pval q) ix). rewrite Q4 by exact Hix. change (centred_div g (vval v) ix) with (cdivF g (vval v) ix). rewrite <- P, Z by exact Hix. ring. }
  rewrite asum_0 in X.
  assert (N : nsum (gndim g) (fun i => asum (gshape g) (fun ix => cdF g i (pval q) ix * cdF g i (pval q) ix))%R = 0%R) by lra.
  intros i ix Hi Hix. rewrite Hval by auto. change (centred_difference g i (pval q) ix) with (cdF g i (pval q) ix).
  pose proof (@nsum_nonneg_0 _ _ ltac:(intros j Hj; apply asum_nonneg; intros; apply Rle_0_sqr) N i Hi) as Y. cbv beta in Y.
  assert (W : (cdF g i (pval q) ix * cdF g i (pval q) ix = 0)%R).
  { refine (@asum_nonneg_0 (gshape g) (fun ix => cdF g i (pval q) ix * cdF g i (pval q) ix)%R _ Y ix Hix). intros; apply Rle_0_sqr. }
  apply Rsqr_0_uniq in W. rewrite W. ring.
Qed.
End Coll.

Lemma cv_new g bs w F : wfg g -> length w = gndim g -> length bs = gndim g -> (forall b, In b bs -> perbc g b /\ bhom b = true) -> map gbc w = bs ->
  (forall i, (i < gndim g)%nat -> prep g (cell_center g) (F i) (garray (nth i w dgv))) -> collocated_velocity g (cell_center g) bs w.
Proof.
  intros Hw HL HLb Hb Eb H.
  assert (B : forall i, (i < gndim g)%nat -> gbc (nth i w dgv) = nth i bs (gbc dgv)) by (intros i Hi; rewrite <- Eb, map_nth; reflexivity).
  split; [|split; [|split; [|exact Eb]]].
  - split; [exact HL|]. apply Forall_forall. intros x Hx. apply (In_nth _ _ dgv) in Hx. destruct Hx as (i & Hi & <-). rewrite HL in Hi.
    destruct (H i Hi) as (G1 & G2 & G3 & _). split; [|exact G1]. split; [split; [rewrite G1; exact Hw|]; split; [congruence|]|].
    + rewrite (off_eq_length G2), G1. apply cell_center_length.
    + rewrite G1, (B i Hi). apply Hb. apply nth_In. lia.
  - apply Forall_forall. intros x Hx. apply (In_nth _ _ dgv) in Hx. destruct Hx as (i & Hi & <-). rewrite HL in Hi. rewrite (B i Hi). apply Hb. apply nth_In. lia.
  - apply Forall_forall. intros x Hx. apply (In_nth _ _ dgv) in Hx. destruct Hx as (i & Hi & <-). rewrite HL in Hi. apply (H i Hi).
Qed.
Lemma col_filtered_velocity solve noise g M peak : (0 < gndim g)%nat -> wfg g -> (0 < peak)%R -> (forall i, (i < gndim g)%nat -> shp (noise i) = gshape g) ->
  exists v0, (forall k, col_filtered_velocity_field solve noise g M peak k = repeated_result (project_and_normalize (col_projection solve) M) k v0) /\
    collocated_velocity g (cell_center g) (repeat (periodic_bc (gndim g)) (gndim g)) v0 /\
    forall i, (i < gndim g)%nat -> momentum v0 i = 0%R /\ forall kx, inb (gshape g) kx ->
      coefficient (gdata (garray (nth i v0 dgv))) kx = Cscal (filter_factor (initial_spectrum peak (gndim g)) g kx) (coefficient (noise i) kx).
Proof.
  intros Hd Hw Hp Hn. destruct (@filtered_ok noise g peak Hw Hn) as (c & Ec & HLc & Hc).
  assert (X : exists v0, mapM (fun ub => mk_gvar (mkga (fst ub) (cell_center g) g) (snd ub)) (combine c (repeat (periodic_bc (gndim g)) (gndim g))) = Ok v0 /\ length v0 = gndim g /\
    forall i, (i < gndim g)%nat -> nth i v0 dgv = mkgv (mkga (nth i c (afull [] 0%R)) (cell_center g) g) (periodic_bc (gndim g))).
  { destruct (@mapM_combine (arr R) bcs gvar (fun ub => mk_gvar (mkga (fst ub) (cell_center g) g) (snd ub))
      (fun i w => w = mkgv (mkga (nth i c (afull [] 0%R)) (cell_center g) g) (periodic_bc (gndim g))) c (repeat (periodic_bc (gndim g)) (gndim g)) (afull [] 0%R) (gbc dgv)) as (v0 & E & HL & H).
    - rewrite repeat_length. exact HLc.
    - intros i Hi. rewrite HLc in Hi. cbn [fst snd]. rewrite nth_repeat' by exact Hi. unfold mk_gvar. cbn [ggrid periodic_bc]. change (btypes (periodic_bc (gndim g))) with (repeat (Periodic, Periodic) (gndim g)). rewrite repeat_length, Nat.eqb_refl. eexists. split; reflexivity.
    - exists v0. split; [exact E|]. split; [lia|]. intros i Hi. apply (H i dgv). lia. }
  destruct X as (v0 & E0 & HL0 & H0).
  assert (P : forall i, (i < gndim g)%nat -> prep g (cell_center g) (get (nth i c (afull [] 0%R))) (garray (nth i v0 dgv))).
  { intros i Hi. rewrite (H0 i Hi). destruct (Hc i Hi) as (S & _). split; [reflexivity|]. split; [apply off_eq_refl|]. split; [exact S | reflexivity]. }
  exists v0. split; [|split].
  - intros k. unfold col_filtered_velocity_field. rewrite Ec. cbn [bind]. rewrite E0. reflexivity.
  - refine (@cv_new g _ v0 _ Hw HL0 (repeat_length _ _) (perbc_repeat g) _ P).
    apply (list_ext_nth (gbc dgv)); rewrite map_length, ?repeat_length; [exact HL0|]. intros i Hi. rewrite HL0 in Hi. rewrite map_nth, (H0 i Hi), nth_repeat' by exact Hi. reflexivity.
  - intros i Hi. destruct (Hc i Hi) as (S & C & T). split.
    + rewrite momentum_nth by lia. rewrite (total_is (P i Hi)). unfold total in T. rewrite S in T. exact T.
    + intros kx Hk. rewrite <- (spectrum_factor g kx Hp Hd), <- C by exact Hk. rewrite (H0 i Hi). reflexivity.
Qed.

(* @prop C59 The collocated filtered_velocity_field has the same properties with every component at the cell centres, the centred divergence and a solver of the centred Poisson equation. *)
Lemma collocated_filtered_velocity_field_spec_lem : forall g noise solve M peak k, (0 < gndim g)%nat -> wfg g -> (0 < peak)%R -> (0 < M)%R ->
  (forall i, (i < gndim g)%nat -> shp (noise i) = gshape g) -> solves_centred_poisson g (cell_center g) solve ->
  let bs := repeat (periodic_bc (gndim g)) (gndim g) in
  exists v0 w, col_filtered_velocity_field solve noise g M peak 0 = Ok v0 /\ collocated_velocity g (cell_center g) bs v0 /\
    (forall i u kx, nth_error v0 i = Some u -> inb (gshape g) kx ->
       coefficient (gdata (garray u)) kx = Cscal (filter_factor (initial_spectrum peak (gndim g)) g kx) (coefficient (noise i) kx)) /\
    (forall i, momentum v0 i = 0%R) /\ col_projection solve v0 = Ok w /\
    ((exists i ix, (i < gndim g)%nat /\ inb (gshape g) ix /\ vval w i ix <> 0%R) ->
      exists m v d, is_max_speed g w m /\ (0 < m)%R /\ col_filtered_velocity_field solve noise g M peak (S k) = Ok v /\
        (forall i ix, (i < gndim g)%nat -> inb (gshape g) ix -> vval v i ix = (M / m * vval w i ix)%R) /\
        collocated_velocity g (cell_center g) bs v /\ centered_divergence v = Ok d /\ is_field d g (cell_center g) (fun _ => 0%R) /\
        is_max_speed g v M /\ forall i, momentum v i = 0%R) /\
    ((forall i ix, (i < gndim g)%nat -> inb (gshape g) ix -> vval w i ix = 0%R) -> col_filtered_velocity_field solve noise g M peak (S k) = Err EZeroDiv).
Proof.
  intros g noise solve M peak k Hd Hw Hp HM Hn Hs bs.
  destruct (@col_filtered_velocity solve noise g M peak Hd Hw Hp Hn) as (v0 & E0 & V0 & H0).
  destruct (@co_project g bs solve Hd Hs v0 V0) as (w & Ew & Vw & Dw).
  assert (Mom0 : forall i, momentum v0 i = 0%R).
  { intros i. destruct (Nat.lt_ge_cases i (gndim g)) as [Hi|Hi]; [apply (H0 i Hi)|]. apply momentum_out. rewrite (co_len V0). exact Hi. }
  exists v0, w. split; [rewrite E0; apply repeated_result_0|]. split; [exact V0|]. split.
  { intros i u kx Hu Hk. assert (Hi : (i < gndim g)%nat) by (rewrite <- (co_len V0); apply nth_error_Some; congruence).
    destruct (H0 i Hi) as (_ & C). specialize (C kx Hk). rewrite (nth_error_nth _ _ _ Hu) in C. exact C. }
  split; [exact Mom0|]. split; [exact Ew|]. rewrite E0. split.
  - intros (i & ix & Hi & Hix & Hnz).
    destruct (@max_speed_ok g (fun i => cell_center g) _ Hd Hw (@co_len g bs) (@co_prep g bs) w Vw) as (m & _ & Hm).
    assert (Hpos : (0 < m)%R).
    { apply Rlt_le_trans with (speed w ix); [|apply Hm; exact Hix]. unfold speed. apply sqrt_lt_R0. rewrite (co_len Vw).
      destruct (Rle_lt_or_eq_dec 0 (nsum (gndim g) (fun i => vval w i ix ^ 2)%R)) as [L|Z]; [|exact L|].
      - apply nsum_nonneg. intros; apply pow2_ge_0.
      - exfalso. apply Hnz. pose proof (@nsum_nonneg_0 (gndim g) (fun i => vval w i ix ^ 2)%R ltac:(intros; apply pow2_ge_0) (eq_sym Z) i Hi) as X. cbv beta in X.
        apply Rsqr_0_uniq. rewrite Rsqr_pow2. exact X. }
    destruct (@pn_iter g (fun i => cell_center g) (collocated_velocity g (cell_center g) bs) (cdiv_free g) (col_projection solve) M Hd Hw HM (@co_len g bs) (@co_prep g bs) (@co_intro g bs Hd)
       (@co_scale g bs Hd Hw) (@co_project g bs solve Hd Hs) (@co_fix g bs solve Hd Hw Hs) v0 w m V0 Ew Vw Dw Hm Hpos k) as (v & Ev & Vv & (d & Ed & Zd) & Mv & Hv).
    exists m, v, d. split; [exact Hm|]. split; [exact Hpos|]. split; [exact Ev|]. split; [exact Hv|]. split; [exact Vv|]. split; [exact Ed|]. split; [exact Zd|]. split; [exact Mv|].
    intros j. rewrite (@momentum_scaled g (collocated_velocity g (cell_center g) bs) (fun i => cell_center g) w v (M / m)%R j (@co_len g bs) (@co_prep g bs) Vw Vv Hv).
    rewrite (@co_momentum g bs solve Hd Hw Hs v0 w V0 Ew j), Mom0. ring.
  - intros Z. exact (@pn_zero g (fun i => cell_center g) (collocated_velocity g (cell_center g) bs) (col_projection solve) M Hd Hw (@co_len g bs) (@co_prep g bs) v0 w V0 Ew Vw Z k).
Qed.

(* @prop C59 The log-normal density of the initial spectrum takes its largest value at its mode, the requested peak wave number, and only there: at every other positive wave number it is smaller. *)
Lemma log_normal_mode_lem : forall x mode variance, (0 < x)%R -> (0 < mode)%R -> (0 < variance)%R -> x <> mode ->
  (0 < log_normal_pdf x mode variance < log_normal_pdf mode mode variance)%R.
Proof.
  intros x mode variance Hx Hm Hv Hne. unfold log_normal_pdf. cbv zeta. split; [apply exp_pos|]. apply exp_increasing.
  set (a := ln x). set (b := ln mode).
  assert (Hab : a <> b) by (intros E; apply Hne; apply ln_inv; auto).
  replace (- (b + variance - b) ^ 2 / 2 / variance - b)%R with (- (b + variance - a) ^ 2 / 2 / variance - a + (a - b) ^ 2 / (2 * variance))%R by (field; lra).
  assert (0 < (a - b) ^ 2 / (2 * variance))%R. { apply Rdiv_lt_0_compat; [|lra]. rewrite <- Rsqr_pow2. apply Rsqr_pos_lt. lra. } lra.
Qed.
(* @ex *)
Lemma log_normal_mode_ex_lem : (0 < 2)%R /\ (0 < 3)%R /\ (0 < 1 / 4)%R /\ (2 <> 3)%R.
Proof. lra. Qed.

(** ** examples *)
Definition coordinate_fn (a : nat) (m : list (arr R)) : result (arr R) := getM m a.
Lemma coordinate_fn_elementwise s a : (a < length s)%nat -> elementwise s (fun l => nth a l 0%R) (coordinate_fn a).
Proof.
  intros Ha m HL Hm. unfold coordinate_fn, getM. rewrite (nth_error_nth' _ (afull [] 0%R)) by lia. eexists. split; [reflexivity|]. split.
  - apply Hm. apply nth_In. lia.
  - intros ix Hix. rewrite (nth_map' _ _ (afull [] 0%R) 0%R) by lia. reflexivity.
Qed.
Lemma p34_elementwise i : (i < gndim p34g)%nat -> elementwise (gshape p34g) (fun l => nth (1 - i) l 0%R) (nth i [coordinate_fn 1; coordinate_fn 0] (fun _ => Err EType)).
Proof. intros Hi. destruct i as [|[|i]]; cbn [nth Nat.sub]; [apply coordinate_fn_elementwise; cbn; lia | apply coordinate_fn_elementwise; cbn; lia | cbn in Hi; lia]. Qed.
(* @ex *)
Lemma wrap_variables_periodic_ex_lem : let var := map (fun u => gdata (garray u)) p34v in let bs := map gbc p34v in
  wfg p34g /\ length var = length (cell_faces p34g) /\ length (cell_faces p34g) = length bs /\ (forall a, In a var -> shp a = gshape p34g) /\
  (forall o, In o (cell_faces p34g) -> length o = gndim p34g) /\ (forall b, In b bs -> perbc p34g b).
Proof.
  cbv zeta. split; [exact p34_wfg|]. split; [reflexivity|]. split; [reflexivity|]. split; [|split].
  - intros a [<- | [<- | []]]; reflexivity.
  - intros o [<- | [<- | []]]; reflexivity.
  - intros b [<- | [<- | []]]; reflexivity.
Qed.
(* @ex *)
Lemma initial_velocity_samples_ex_lem : let fns := [coordinate_fn 1; coordinate_fn 0] in
  wfg p34g /\ length fns = gndim p34g /\ (forall i, (i < gndim p34g)%nat -> elementwise (gshape p34g) (fun l => nth (1 - i) l 0%R) (nth i fns (fun _ => Err EType))) /\
  (forall b, In b (repeat (periodic_bc 2) 2) -> length (btypes b) = gndim p34g) /\ coord p34g (offs 0 (1 # 2) (cell_center p34g)) 1 [2; 3] = (7 / 4)%R.
Proof.
  cbv zeta. split; [exact p34_wfg|]. split; [reflexivity|]. split; [exact p34_elementwise|]. split; [intros b [<- | [<- | []]]; reflexivity|].
  unfold coord. cbn. lra.
Qed.
(* @ex *)
Lemma initial_velocity_projected_ex_lem : forall tpu eigh, let fns := [coordinate_fn 1; coordinate_fn 0] in let bs := [periodic_bc 2; periodic_bc 2] in
  (0 < gndim p34g)%nat /\ wfg p34g /\ length fns = gndim p34g /\
  (forall i, (i < gndim p34g)%nat -> elementwise (gshape p34g) (fun l => nth (1 - i) l 0%R) (nth i fns (fun _ => Err EType))) /\
  length bs = gndim p34g /\ (forall b, In b bs -> perbc p34g b /\ bhom b = true) /\
  solves_poisson p34g (cell_center p34g) (fun v _ b => pressure_solve_fast_diag tpu eigh (1 / 1000) v (Some b) (Some Fft)).
Proof.
  intros tpu eigh. cbv zeta. split; [cbn; lia|]. split; [exact p34_wfg|]. split; [reflexivity|]. split; [exact p34_elementwise|]. split; [reflexivity|]. split; [|exact (p34_solver tpu eigh)].
  intros b [<- | [<- | []]]; split; reflexivity.
Qed.
(* @ex *)
Lemma filtered_velocity_field_1d_ex_lem : forall tpu eigh, gndim c3g = 1%nat /\ wfg c3g /\ shp (gdata (garray c3c)) = gshape c3g /\
  solves_poisson c3g (cell_center c3g) (fun v _ b => pressure_solve_fast_diag tpu eigh (1 / 1000) v (Some b) (Some Fft)).
Proof.
  intros tpu eigh. split; [reflexivity|]. split; [exact c3_wfg|]. split; [reflexivity|].
  apply (@default_pressure_solver_lem tpu eigh (1 / 1000) (Some Fft) c3g ltac:(cbn; lia) c3_wfg); [lra | |intros; exact I].
  intros a Ha. assert (a = 0%nat) as -> by (cbn in Ha; lia). cbn. split; [lia|]. lra.
Qed.
(** a 1 x 2 grid *)
Definition e2g : grid := mkgrid [1%nat; 2%nat] [1%R; 1%R] [(0%R, 1%R); (0%R, 2%R)].
Definition e2_noise (i : nat) : arr R := mkarr [1%nat; 2%nat] (fun ix => if (i =? 0)%nat then (if nth 1 ix 0 =? 0 then 1%R else (-1)%R) else 0%R).
Definition e2_solve (v : list gvar) (_ : gvar) (_ : bcs) : result garr := let* d := divergence v in ga_scale (- (1 / 4)) d.
Lemma e2_wfg : wfg e2g.
Proof. repeat constructor; (lia || lra). Qed.
Lemma e2_inb ix : inb [1%nat; 2%nat] ix -> ix = [0; 0] \/ ix = [0; 1].
Proof. destruct ix as [|i [|j [|k ix]]]; cbn [inb]; intros H; try tauto. assert (i = 0) as -> by lia. assert (j = 0 \/ j = 1) as [-> | ->] by lia; auto. Qed.
Lemma e2_per (F : list Z -> R) : periodic [1%nat; 2%nat] F -> F [-1; 0] = F [0; 0] /\ F [-1; 1] = F [0; 1] /\ F [1; 0] = F [0; 0] /\ F [1; 1] = F [0; 1] /\ F [0; -1] = F [0; 1] /\ F [0; 2] = F [0; 0].
Proof. intros H. repeat apply conj; match goal with |- F ?a = F ?b => exact (eq_sym (H a eq_refl)) end. Qed.
Lemma e2_divF Fs ix : divF e2g Fs ix = ((Fs 0%nat ix - Fs 0%nat (shiftix 0 (-1) ix)) / 1 + ((Fs 1%nat ix - Fs 1%nat (shiftix 1 (-1) ix)) / 1))%R.
Proof. unfold divF. change (gndim e2g) with 2%nat. unfold nsum, lsum. cbn [seq map fold_right]. unfold bdF, hstep. cbn [gstep e2g nth]. ring. Qed.
Lemma e2_coefficient a : shp a = [1%nat; 2%nat] -> coefficient a [0; 1] = RtoC (get a [0%Z; 0%Z] - get a [0%Z; 1%Z])%R.
Proof.
  intros S. unfold coefficient. rewrite (proj2 (fftn_kron (amap RtoC a))) by (cbn [amap shp]; rewrite S; reflexivity). cbn [amap shp get]. rewrite S. cbn [map kron gsum].
  change (Z.of_nat 0) with 0. change (Z.of_nat 1) with 1. unfold dftm.
  replace (- (2 * PI * IZR (0 * 0) / INR 1))%R with 0%R by (cbn; field). replace (- (2 * PI * IZR (0 * 1) / INR 2))%R with 0%R by (cbn; field).
  replace (- (2 * PI * IZR (1 * 1) / INR 2))%R with (- PI)%R by (cbn; field).
  unfold cis. rewrite cos_0, sin_0, cos_neg, sin_neg, cos_PI, sin_PI. apply Ceq; cbn; ring.
Qed.
Lemma e2_solves : solves_poisson e2g (cell_center e2g) e2_solve.
Proof.
  intros v q0 b Hv Hf Hb Eb. assert (Hd : (0 < gndim e2g)%nat) by (cbn; lia).
  destruct (@div_prep e2g (cell_center e2g) (fun i => offs i (1 # 2) (cell_center e2g)) (vval v) v e2_wfg Hd) as (d & Ed & Pd).
  { split; [apply Hv|]. intros i Hi. destruct (periodic_vec_pvar Hv Hi) as (P & B). split; [|exact B]. eapply prep_off; [|exact P]. apply Hf. apply nth_error_nth'. destruct Hv as (-> & _). exact Hi. }
  { intros i Hi. apply (periodic_vval Hv Hi). }
  { intros i Hi. split; [rewrite offs_length; reflexivity|]. eapply off_eq_trans; [apply offs_offs|].
    eapply off_eq_trans; [apply off_eq_offs; [apply off_eq_refl|]; instantiate (1 := 0%Q); reflexivity | apply offs_0]. }
  destruct (prep_scalar_l Rmult (- (1 / 4)) Pd) as (q & Eq & Pq). destruct Pq as (Q1 & Q2 & Q3 & Q4).
  assert (W : wf_garr q). { split; [rewrite Q1; exact e2_wfg|]. split; [rewrite Q1; exact Q3|]. rewrite (off_eq_length Q2), Q1. reflexivity. }
  assert (Hpq : periodic_field (mkgv q b)) by (split; [exact W | cbn [garray gbc]; rewrite Q1; exact Hb]).
  destruct (@lap_prep _ _ _ (mkgv q b) (pf_wfg Hpq) (pf_per Hpq) (pf_off Hpq) (pf_pvar Hpq)) as (lq & El & (_ & _ & Sl & Vl)). cbn [garray] in Sl, Vl. rewrite Q1 in Sl, Vl.
  exists q, d, lq. split; [unfold e2_solve; rewrite Ed; exact Eq|]. split; [exact W|]. split; [exact Q1|]. split; [exact Q2|]. split; [exact Ed|]. split; [exact El|].
  destruct Pd as (_ & _ & Sd & Vd). split; [congruence|]. rewrite Sl. intros ix Hix. rewrite Vl, Vd by exact Hix. rewrite e2_divF.
  assert (P0 : periodic [1%nat; 2%nat] (vval v 0)) by (apply (periodic_vval Hv); cbn; lia). assert (P1 : periodic [1%nat; 2%nat] (vval v 1)) by (apply (periodic_vval Hv); cbn; lia).
  assert (PQ : periodic [1%nat; 2%nat] (pval q)). { change [1%nat; 2%nat] with (gshape e2g). rewrite <- Q3. apply periodic_pval. }
  destruct (e2_per P0) as (A1 & A2 & A3 & A4 & A5 & A6). destruct (e2_per P1) as (B1 & B2 & B3 & B4 & B5 & B6). destruct (e2_per PQ) as (C1 & C2 & C3 & C4 & C5 & C6).
  assert (Z0 : pval q [0; 0] = (- (1 / 4) * (vval v 1 [0%Z; 0%Z] - vval v 1 [0%Z; 1%Z]))%R).
  { unfold pval. rewrite Q3, wrap_inb by (cbn [inb gshape e2g]; lia). rewrite Q4 by (cbn [inb gshape e2g]; lia). rewrite e2_divF. unfold shiftix. cbn [nth upd].
    change (0 + -1) with (-1). rewrite A1, B5. lra. }
  assert (Z1 : pval q [0; 1] = (- (1 / 4) * (vval v 1 [0%Z; 1%Z] - vval v 1 [0%Z; 0%Z]))%R).
  { unfold pval. rewrite Q3, wrap_inb by (cbn [inb gshape e2g]; lia). rewrite Q4 by (cbn [inb gshape e2g]; lia). rewrite e2_divF. unfold shiftix. cbn [nth upd].
    change (0 + -1) with (-1). change (1 + -1) with 0. rewrite A2. lra. }
  unfold lapF. change (gndim e2g) with 2%nat. unfold nsum, lsum. cbn [seq map fold_right]. unfold hstep. cbn [gstep e2g nth]. replace (Rsqr (1 / 1)) with 1%R by (unfold Rsqr; field).
  apply e2_inb in Hix. destruct Hix as [-> | ->]; unfold shiftix; cbn [nth upd];
    change (0 + 1) with 1; change (0 + -1) with (-1); change (1 + -1) with 0; change (1 + 1) with 2;
    rewrite ?A1, ?A2, ?A3, ?A4, ?A5, ?A6, ?B1, ?B2, ?B3, ?B4, ?B5, ?B6, ?C1, ?C2, ?C3, ?C4, ?C5, ?C6, ?Z0, ?Z1; lra.
Qed.
Lemma e2_wave : (0 < wave_vector_length e2g [0%Z; 1%Z])%R.
Proof.
  unfold wave_vector_length. apply sqrt_lt_R0. change (gndim e2g) with 2%nat. unfold nsum, lsum. cbn [seq map fold_right nth gshape e2g]. change (signed_index 2 1) with (-1). change (signed_index 1 0) with 0.
  unfold hstep. cbn [gstep e2g nth INR]. pose proof PI_RGT_0. 
  replace ((2 * PI * 0 / (1 * 1)) ^ 2 + ((2 * PI * -1 / ((1 + 1) * 1)) ^ 2 + 0))%R with (PI ^ 2)%R by field. apply pow_lt. exact H.
Qed.
Lemma e2_factor : (0 < filter_factor (initial_spectrum 3 2) e2g [0%Z; 1%Z])%R.
Proof.
  unfold filter_factor. pose proof e2_wave as H. destruct (Rlt_dec 0 _) as [_|N]; [|tauto]. unfold initial_spectrum. apply Rdiv_lt_0_compat; [apply exp_pos | apply pow_lt; exact H].
Qed.
Lemma e2_shape i : (i < gndim e2g)%nat -> shp (e2_noise i) = gshape e2g.
Proof. reflexivity. Qed.
(** the filtered noise is (b, 0) with b not zero *)
Lemma e2_values (v0 : list gvar) : length v0 = 2%nat -> (forall i, (i < 2)%nat -> shp (gdata (garray (nth i v0 dgv))) = [1%nat; 2%nat]) -> (forall i, momentum v0 i = 0%R) ->
  (forall i u kx, nth_error v0 i = Some u -> inb (gshape e2g) kx ->
       coefficient (gdata (garray u)) kx = Cscal (filter_factor (initial_spectrum 3 (gndim e2g)) e2g kx) (coefficient (e2_noise i) kx)) ->
  (forall i ix, (i < 2)%nat -> inb [1%nat; 2%nat] ix -> vval v0 i ix = get (gdata (garray (nth i v0 dgv))) ix) ->
  (vval v0 0 [0%Z; 0%Z] <> 0 \/ vval v0 0 [0%Z; 1%Z] <> 0)%R /\ (vval v0 1 [0%Z; 0%Z] = 0 /\ vval v0 1 [0%Z; 1%Z] = 0)%R.
Proof.
  intros HL Hs Hm Hc Hv.
  assert (I0 : inb [1%nat; 2%nat] [0; 0]) by (cbn [inb]; lia). assert (I1 : inb [1%nat; 2%nat] [0; 1]) by (cbn [inb]; lia).
  assert (K : forall i, (i < 2)%nat -> (vval v0 i [0%Z; 0%Z] - vval v0 i [0%Z; 1%Z] = filter_factor (initial_spectrum 3 2) e2g [0%Z; 1%Z] * (get (e2_noise i) [0%Z; 0%Z] - get (e2_noise i) [0%Z; 1%Z]))%R).
  { intros i Hi. pose proof (Hc i (nth i v0 dgv) [0; 1] (nth_error_nth' v0 dgv (n := i) (eq_ind_r (fun n => (i < n)%nat) Hi HL)) I1) as C. rewrite !e2_coefficient in C by (reflexivity || apply Hs; exact Hi).
    apply (f_equal re) in C. cbn [re RtoC Cscal] in C. rewrite !Hv by auto. exact C. }
  split.
  - pose proof (K 0%nat ltac:(lia)) as K0. unfold e2_noise in K0. cbn [get Nat.eqb nth] in K0. change (0 =? 0) with true in K0. change (1 =? 0) with false in K0. cbv iota in K0. pose proof e2_factor.
    destruct (Req_EM_T (vval v0 0 [0%Z; 0%Z]) 0) as [Z|Z]; [right; intros Z'; rewrite Z, Z' in K0; lra | left; exact Z].
  - pose proof (K 1%nat ltac:(lia)) as K1. unfold e2_noise in K1. cbn [get Nat.eqb nth] in K1.
    pose proof (Hm 1%nat) as T. rewrite momentum_nth in T by lia. unfold total in T. rewrite (Hs 1%nat ltac:(lia)) in T.
    assert (T' : (get (gdata (garray (nth 1 v0 dgv))) [0%Z; 0%Z] + get (gdata (garray (nth 1 v0 dgv))) [0%Z; 1%Z] = 0)%R) by (rewrite <- T; cbn; ring).
    rewrite <- !Hv in T' by auto. replace (0 - 0)%R with 0%R in K1 by ring. rewrite Rmult_0_r in K1. lra.
Qed.
(* @ex *)
Lemma filtered_velocity_field_spec_ex_lem : (0 < gndim e2g)%nat /\ wfg e2g /\ (forall i, (i < gndim e2g)%nat -> shp (e2_noise i) = gshape e2g) /\ solves_poisson e2g (cell_center e2g) e2_solve /\
  exists v0 w, filtered_velocity_field e2_solve e2_noise e2g 7 3 0 = Ok v0 /\ projection e2_solve v0 = Ok w /\
    exists i ix, (i < gndim e2g)%nat /\ inb (gshape e2g) ix /\ vval w i ix <> 0%R.
Proof.
  assert (Hd : (0 < gndim e2g)%nat) by (cbn; lia). split; [exact Hd|]. split; [exact e2_wfg|]. split; [exact e2_shape|]. split; [exact e2_solves|].
  destruct (@filtered_velocity_field_spec_lem e2g e2_noise e2_solve 7 3 0 Hd e2_wfg ltac:(lra) ltac:(lra) e2_shape e2_solves) as (v0 & w & E0 & V0 & C0' & M0 & Ew & _).
  exists v0, w. split; [exact E0|]. split; [exact Ew|].
  assert (P : forall i, (i < 2)%nat -> prep e2g (offs i (1 # 2) (cell_center e2g)) (vval v0 i) (garray (nth i v0 dgv))) by (intros i Hi; apply (@st_prep e2g _ Hd v0 i V0 Hi)).
  destruct (@e2_values v0 (pv_len V0)) as (N & Z0 & Z1).
  { intros i Hi. apply (P i Hi). } { exact M0. } { exact C0'. } { intros i ix Hi Hix. destruct (P i Hi) as (_ & _ & _ & A). symmetry. apply A. exact Hix. }
  pose proof V0 as (Hpv & _).
  assert (P0 : periodic [1%nat; 2%nat] (vval v0 0)) by (apply (periodic_vval Hpv); cbn; lia). assert (P1 : periodic [1%nat; 2%nat] (vval v0 1)) by (apply (periodic_vval Hpv); cbn; lia).
  destruct (e2_per P0) as (A1 & A2 & A3 & A4 & A5 & A6). destruct (e2_per P1) as (B1 & B2 & B3 & B4 & B5 & B6).
  assert (D : div_free e2g v0).
  { destruct (@st_div e2g _ Hd e2_wfg v0 V0) as (d & Ed & Pd). exists d. split; [exact Ed|]. eapply prep_ext; [|exact Pd]. intros ix Hix. cbv beta. rewrite e2_divF.
    apply e2_inb in Hix. destruct Hix as [-> | ->]; unfold shiftix; cbn [nth upd]; change (0 + -1) with (-1); change (1 + -1) with 0; rewrite ?A1, ?A2, ?B5, ?Z0, ?Z1; lra. }
  pose proof (@st_fix e2g _ e2_solve Hd e2_wfg e2_solves v0 w V0 D Ew) as F.
  destruct N as [N|N]; [exists 0%nat, [0; 0] | exists 0%nat, [0; 1]]; (split; [cbn; lia|]; split; [cbn; lia|]; rewrite F by (cbn; lia); exact N).
Qed.
Definition e2_csolve (v : list gvar) (_ : gvar) : result garr := Ok (mkga (afull [1%nat; 2%nat] 0%R) (cell_center e2g) e2g).
Lemma e2_cd a F ix : periodic [1%nat; 2%nat] F -> length ix = 2%nat -> (a < 2)%nat -> centred_difference e2g a F ix = 0%R.
Proof.
  intros HF HL Ha. destruct ix as [|i [|j [|k ix]]]; try discriminate. unfold centred_difference, next, prev.
  assert (E : F (shiftix a 1 [i; j]) = F (shiftix a (-1) [i; j])).
  { rewrite <- (HF (shiftix a 1 [i; j])), <- (HF (shiftix a (-1) [i; j])) by (rewrite shiftix_length; reflexivity). f_equal.
    destruct a as [|[|a]]; [| |lia]; unfold shiftix; cbn [nth upd wrap].
    - change (Z.of_nat 1) with 1. rewrite !Z.mod_1_r. reflexivity.
    - f_equal. f_equal. change (Z.of_nat 2) with 2. replace (j + 1) with (j + -1 + 1 * 2) by lia. apply Z_mod_plus_full. }
  rewrite E. unfold Rdiv. ring.
Qed.
Lemma e2_csolves : solves_centred_poisson e2g (cell_center e2g) e2_csolve.
Proof.
  intros v Hv Hc. eexists. split; [intros q0 _ _; reflexivity|]. split; [split; [exact e2_wfg|]; split; reflexivity|]. split; [reflexivity|]. split; [apply off_eq_refl|].
  intros ix Hix. pose proof (inb_length _ _ Hix) as HL. unfold centred_laplacian, centred_div.
  transitivity 0%R; [|symmetry].
  - rewrite (@nsum_ext _ _ (fun _ => 0%R)); [rewrite nsum_const; ring|]. intros a Ha. apply e2_cd; [|exact HL|exact Ha]. intros jx Hj. rewrite !e2_cd; try reflexivity; try exact Ha; try exact Hj; try (apply (@periodic_pval (mkga (afull [1%nat; 2%nat] 0%R) (cell_center e2g) e2g))).
    rewrite wrap_length; [reflexivity | exact Hj].
  - rewrite (@nsum_ext _ _ (fun _ => 0%R)); [rewrite nsum_const; ring|]. intros a Ha. apply e2_cd; [|exact HL|exact Ha]. apply (periodic_vval Hv Ha).
Qed.
(* @ex *)
Lemma collocated_filtered_velocity_field_spec_ex_lem : (0 < gndim e2g)%nat /\ wfg e2g /\ (forall i, (i < gndim e2g)%nat -> shp (e2_noise i) = gshape e2g) /\ solves_centred_poisson e2g (cell_center e2g) e2_csolve /\
  exists v0 w, col_filtered_velocity_field e2_csolve e2_noise e2g 7 3 0 = Ok v0 /\ col_projection e2_csolve v0 = Ok w /\
    exists i ix, (i < gndim e2g)%nat /\ inb (gshape e2g) ix /\ vval w i ix <> 0%R.
Proof.
  assert (Hd : (0 < gndim e2g)%nat) by (cbn; lia). split; [exact Hd|]. split; [exact e2_wfg|]. split; [exact e2_shape|]. split; [exact e2_csolves|].
  destruct (@collocated_filtered_velocity_field_spec_lem e2g e2_noise e2_csolve 7 3 0 Hd e2_wfg ltac:(lra) ltac:(lra) e2_shape e2_csolves) as (v0 & w & E0 & V0 & C0' & M0 & Ew & _).
  exists v0, w. split; [exact E0|]. split; [exact Ew|].
  assert (P : forall i, (i < 2)%nat -> prep e2g (cell_center e2g) (vval v0 i) (garray (nth i v0 dgv))) by (intros i Hi; apply (@co_prep e2g _ v0 i V0 Hi)).
  destruct (@e2_values v0 (co_len V0)) as (N & Z0 & Z1).
  { intros i Hi. apply (P i Hi). } { exact M0. } { exact C0'. } { intros i ix Hi Hix. destruct (P i Hi) as (_ & _ & _ & A). symmetry. apply A. exact Hix. }
  pose proof V0 as (Hpv & _).
  assert (D : cdiv_free e2g v0).
  { destruct (@co_div e2g _ Hd e2_wfg v0 V0) as (d & Ed & Pd). exists d. split; [exact Ed|]. eapply prep_ext; [|exact Pd]. intros ix Hix. cbv beta. unfold cdivF.
    rewrite (@nsum_ext _ _ (fun _ => 0%R)); [rewrite nsum_const; ring|]. intros a Ha. apply e2_cd; [apply (periodic_vval Hpv Ha) | exact (inb_length _ _ Hix) | exact Ha]. }
  pose proof (@co_fix e2g _ e2_csolve Hd e2_wfg e2_csolves v0 w V0 D Ew) as F.
  destruct N as [N|N]; [exists 0%nat, [0; 0] | exists 0%nat, [0; 1]]; (split; [cbn; lia|]; split; [cbn; lia|]; rewrite F by (cbn; lia); exact N).
Qed.
