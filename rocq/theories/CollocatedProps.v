(** * C50: collocated operators *)
From Verif Require Import Prelude NdArr Grids_model Spec SpecCol Boundaries_model BoundariesPeriodic FD_model PRep FDProofs FDProps Pressure_model PressureProps Interp_model InterpProofs InterpProps Advection_model AdvectionProofs AdvectionProps ConvectProps Equations_model SpecNS EquationsProps EquationsMoreProps Collocated_model.
Set Implicit Arguments.
Local Open Scope Z_scope.

Lemma periodic_cdF g ax F : periodic (gshape g) F -> periodic (gshape g) (cdF g ax F).
Proof.
  intros HF ix HL. unfold cdF. pose proof (@periodic_shift (gshape g) ax 1 F HF ix HL) as H1. pose proof (@periodic_shift (gshape g) ax (-1) F HF ix HL) as H2.
  cbv beta in H1, H2. rewrite H1, H2. reflexivity.
Qed.
(** summation by parts for centred differences *)
Lemma csbp g ax F G : allpos (gshape g) -> periodic (gshape g) F -> periodic (gshape g) G ->
  asum (gshape g) (fun ix => F ix * cdF g ax G ix)%R = (- asum (gshape g) (fun ix => cdF g ax F ix * G ix))%R.
Proof.
  intros Hp HF HG.
  assert (E1 : asum (gshape g) (fun ix => F ix * G (shiftix ax 1 ix))%R = asum (gshape g) (fun ix => F (shiftix ax (-1) ix) * G ix)%R).
  { rewrite <- (@asum_shift_periodic (gshape g) ax (-1) (fun ix => F ix * G (shiftix ax 1 ix))%R); auto.
    - apply asum_ext; intros ix Hi. rewrite shiftix_add. simpl. rewrite shiftix_0. reflexivity.
    - apply periodic_mult; auto. apply periodic_shift; auto. }
  assert (E2 : asum (gshape g) (fun ix => F ix * G (shiftix ax (-1) ix))%R = asum (gshape g) (fun ix => F (shiftix ax 1 ix) * G ix)%R).
  { rewrite <- (@asum_shift_periodic (gshape g) ax 1 (fun ix => F ix * G (shiftix ax (-1) ix))%R); auto.
    - apply asum_ext; intros ix Hi. rewrite shiftix_add. simpl. rewrite shiftix_0. reflexivity.
    - apply periodic_mult; auto. apply periodic_shift; auto. }
  unfold cdF, Rdiv.
  rewrite (@asum_ext _ (fun ix => F ix * ((G (shiftix ax 1 ix) - G (shiftix ax (-1) ix)) * / (2 * hstep g ax)))%R (fun ix => / (2 * hstep g ax) * (F ix * G (shiftix ax 1 ix) - F ix * G (shiftix ax (-1) ix)))%R) by (intros; ring).
  rewrite (@asum_ext _ (fun ix => (F (shiftix ax 1 ix) - F (shiftix ax (-1) ix)) * / (2 * hstep g ax) * G ix)%R (fun ix => / (2 * hstep g ax) * (F (shiftix ax 1 ix) * G ix - F (shiftix ax (-1) ix) * G ix))%R) by (intros; ring).
  rewrite !asum_scal, !asum_minus, E1, E2. ring.
Qed.
Lemma csbp_all g F Gs : allpos (gshape g) -> periodic (gshape g) F -> (forall i, (i < gndim g)%nat -> periodic (gshape g) (Gs i)) ->
  asum (gshape g) (fun ix => F ix * cdivF g Gs ix)%R = (- nsum (gndim g) (fun i => asum (gshape g) (fun ix => cdF g i F ix * Gs i ix)))%R.
Proof.
  intros Hp HF HG. unfold cdivF. rewrite <- nsum_opp.
  rewrite (@asum_ext _ _ (fun ix => nsum (gndim g) (fun i => F ix * cdF g i (Gs i) ix)))%R by (intros; rewrite nsum_scal; reflexivity).
  rewrite asum_nsum. apply nsum_ext; intros i Hi. apply csbp; auto.
Qed.

Section Col.
Variables (g : grid) (o : list Q).
Hypothesis (Hd : (0 < gndim g)%nat) (Ho : length o = gndim g).

Lemma col_prep v i : periodic_vec g v -> collocated o v -> (i < gndim g)%nat -> pvar g o (vval v i) (nth i v dgv).
Proof.
  intros Hv Hc Hi. pose proof (periodic_vec_pvar Hv Hi) as (A & B). split; [|exact B]. eapply prep_off; [|exact A].
  unfold collocated in Hc. rewrite Forall_forall in Hc. apply Hc. apply nth_In. destruct Hv as (-> & _). exact Hi.
Qed.
Lemma col_hom v i : periodic_vec g v -> homogeneous_vec v -> (i < gndim g)%nat -> bhom (gbc (nth i v dgv)) = true.
Proof. intros Hv Hh Hi. unfold homogeneous_vec in Hh. rewrite Forall_forall in Hh. apply Hh. apply nth_In. destruct Hv as (-> & _). exact Hi. Qed.

Lemma col_advect_prep c v : periodic_field c -> ggrid (garray c) = g -> off_eq (goff (garray c)) o ->
  periodic_vec g v -> homogeneous_vec v -> collocated o v ->
  exists w, col_advect_linear c v = Ok w /\ prep g o (fun ix => - cdivF g (fun a jx => pval (garray c) jx * vval v a jx) ix)%R w.
Proof.
  intros Hc Hg Hco Hv Hh Hcol. pose proof (pf_wfg Hc) as Hw. rewrite Hg in Hw. pose proof Hv as (HLv & _).
  pose proof (pf_pvar Hc) as Pc. rewrite Hg in Pc. destruct Pc as (Pc & Pcb). pose proof (pf_per Hc) as Per. rewrite Hg in Per.
  unfold col_advect_linear.
  destruct (@mapM_enum gvar bcs (fun iu => advection_flux_bc (snd iu) c (fst iu)) (fun i b => perbc g b) v dgv) as (fb & Eb & HLb & Hb).
  { intros i Hi. cbn [fst snd]. assert (Hi' : (i < gndim g)%nat) by lia. apply flux_bc_ok; [apply (col_prep Hv Hcol Hi') | apply (col_hom Hv Hh Hi') | rewrite Hg; reflexivity]. }
  rewrite Eb. cbn [bind]. rewrite Hg.
  destruct (@mapM_seq gvar (fun axis => let* b := getM fb axis in let* u := getM v axis in let* p := ga_mul (garray c) (garray u) in impose_bc b p)
     (fun i w => pvar g o (fun jx => pval (garray c) jx * vval v i jx)%R w) (gndim g)) as (fl & Ef & HLf & Hf).
  { intros i Hi. rewrite (@getM_nth _ fb i (gbc dgv)) by lia. cbn [bind]. rewrite (@getM_nth _ v i dgv) by lia. cbn [bind].
    destruct (prep_op2 Rmult (prep_off Hco Pc) (proj1 (col_prep Hv Hcol Hi))) as (p & Ep & Pp). unfold ga_mul. rewrite Ep. cbn [bind].
    destruct (@impose_prep g o _ (nth i fb (gbc dgv)) p Hw Ho (Hb i (gbc dgv) ltac:(lia)) Pp) as (w & Ew & Pw). eexists; split; [exact Ew|]. split; [exact Pw | apply Hb; lia]. }
  rewrite Ef. cbn [bind].
  destruct (@cdiv_prep g o (fun _ => o) (fun i jx => pval (garray c) jx * vval v i jx)%R fl Hw Hd) as (d & Ed & Pd).
  { split; [exact HLf|]. intros i Hi. apply Hf. exact Hi. }
  { intros i Hi. apply periodic_mult; [exact Per | apply (periodic_vval Hv Hi)]. }
  { intros i Hi. split; [exact Ho | apply off_eq_refl]. }
  rewrite Ed. cbn [bind]. apply prep_neg. exact Pd.
Qed.

Lemma col_flux_prep v : periodic_vec g v -> homogeneous_vec v -> collocated o v ->
  exists fl, col_velocities_to_flux v = Ok fl /\ length fl = gndim g /\
    forall i, (i < gndim g)%nat -> length (nth i fl []) = gndim g /\ forall j, (j < gndim g)%nat -> pvar g o (fun ix => vval v i ix * vval v j ix)%R (nth j (nth i fl []) dgv).
Proof.
  intros Hv Hh Hcol. unfold col_velocities_to_flux. pose proof Hv as (HLv & _). rewrite HLv. pose proof (periodic_vec_wfg Hd Hv) as Hw.
  assert (Hgen : forall k, (k <= gndim g)%nat -> exists fl, foldM (fun flux i => let* row := mapM (col_flux_entry v flux i) (seq 0 (gndim g)) in Ok (flux ++ [row])) [] (seq 0 k) = Ok fl /\
     length fl = k /\ forall i, (i < k)%nat -> length (nth i fl []) = gndim g /\ forall j, (j < gndim g)%nat -> pvar g o (fun ix => vval v i ix * vval v j ix)%R (nth j (nth i fl []) dgv)).
  { induction k as [|k IH]; intros Hk.
    - exists []. split; [reflexivity|]. split; [reflexivity|]. intros i Hi; lia.
    - destruct IH as (fl & E & HLf & Hfl); [lia|]. rewrite seq_S, foldM_app, E. cbn [bind foldM Nat.add].
      destruct (@mapM_seq gvar (col_flux_entry v fl k) (fun j w => pvar g o (fun ix => vval v k ix * vval v j ix)%R w) (gndim g)) as (row & Er & HLr & Hr).
      { intros j Hj. unfold col_flux_entry. destruct (Nat.leb_spec k j) as [Hkj|Hkj].
        - rewrite (@getM_nth _ v j dgv) by lia. cbn [bind]. rewrite (@getM_nth _ v k dgv) by lia. cbn [bind].
          destruct (col_prep Hv Hcol Hk) as (P1 & B1). destruct (col_prep Hv Hcol Hj) as (P2 & B2).
          destruct (@flux_bc_ok g (nth j v dgv) (nth k v dgv) j B2 (col_hom Hv Hh Hj)) as (b & Eb & Pb). { rewrite (proj1 P1). reflexivity. }
          rewrite Eb. cbn [bind]. destruct (prep_op2 Rmult P1 P2) as (p & Ep & Pp). unfold ga_mul. rewrite Ep. cbn [bind].
          destruct (@impose_prep g o _ b p Hw Ho Pb Pp) as (w & Ew & Pw). eexists; split; [exact Ew|]. split; [exact Pw | exact Pb].
        - destruct (Hfl j Hkj) as (L1 & H1). rewrite (@getM_nth _ fl j []) by lia. cbn [bind]. rewrite (@getM_nth _ (nth j fl []) k dgv) by lia.
          eexists; split; [reflexivity|]. destruct (H1 k Hk) as (P & Pb). split; [|exact Pb]. eapply prep_ext; [|exact P]. intros ix _. apply Rmult_comm. }
      rewrite Er. cbn [bind]. exists (fl ++ [row]). split; [reflexivity|]. split; [rewrite app_length; simpl; lia|].
      intros i Hi. destruct (Nat.eq_dec i k) as [->|Hne].
      + rewrite app_nth2 by lia. rewrite HLf, Nat.sub_diag. cbn [nth]. split; [exact HLr|]. intros j Hj. apply Hr; auto.
      + rewrite app_nth1 by lia. apply Hfl. lia. }
  apply Hgen. lia.
Qed.
Lemma col_convect_prep v : periodic_vec g v -> homogeneous_vec v -> collocated o v ->
  exists l, col_convect_linear v = Ok l /\ length l = gndim g /\
    forall i, (i < gndim g)%nat -> prep g o (fun ix => - cdivF g (fun j jx => vval v i jx * vval v j jx) ix)%R (nth i l dga).
Proof.
  intros Hv Hh Hcol. unfold col_convect_linear. destruct (col_flux_prep Hv Hh Hcol) as (fl & Efl & HLfl & Hfl). rewrite Efl. cbn [bind].
  destruct (@mapM_enum (list gvar) garr (fun f => let* d := centered_divergence (snd f) in ga_neg d) (fun i w => prep g o (fun ix => - cdivF g (fun j jx => vval v i jx * vval v j jx) ix)%R w) fl []) as (l & El & HLl & Hl).
  { intros i Hi. cbn [snd]. assert (Hi' : (i < gndim g)%nat) by lia. destruct (Hfl i Hi') as (L1 & H1).
    destruct (@cdiv_prep g o (fun _ => o) (fun j jx => vval v i jx * vval v j jx)%R (nth i fl [])) as (d & Ed & Pd).
    { apply (periodic_vec_wfg Hd Hv). } { exact Hd. } { split; auto. }
    { intros j Hj. apply periodic_mult; apply (periodic_vval Hv); assumption. } { intros j Hj. split; [exact Ho | apply off_eq_refl]. }
    rewrite Ed. cbn [bind]. apply prep_neg. exact Pd. }
  rewrite (mapM_enum_snd (fun f => let* d := centered_divergence f in ga_neg d) fl) in El. exists l. split; [exact El|]. split; [lia|]. intros i Hi. apply Hl. lia.
Qed.

Lemma col_gradient_prep F u : wfg g -> periodic (gshape g) F -> pvar g o F u ->
  exists ws, col_gradient u = Ok ws /\ length ws = gndim g /\ forall i dw, (i < gndim g)%nat -> prep g o (cdF g i F) (nth i ws dw).
Proof.
  intros Hw HF Hu. unfold col_gradient, all_axes, vndim. rewrite (proj1 (proj1 Hu)).
  apply (@mapM_seq garr (central_difference u) (fun i w => prep g o (cdF g i F) w)). intros i Hi. exact (ctr_prep Hw HF Hi Ho Hu).
Qed.
Lemma col_laplacian_prep F u b : wfg g -> periodic (gshape g) F -> perbc g b -> pvar g o F u ->
  exists w, col_laplacian u b = Ok w /\ prep g o (cdivF g (fun a => cdF g a F)) w.
Proof.
  intros Hw HF Hb Hu. unfold col_laplacian. destruct (col_gradient_prep Hw HF Hu) as (ws & E & HL & H). rewrite E. cbn [bind].
  destruct (@mapM_enum garr gvar (fun a => mk_gvar (snd a) b) (fun i w => pvar g o (cdF g i F) w) ws dga) as (vs & Ev & HLv & Hv).
  { intros i Hi. cbn [snd]. specialize (H i dga ltac:(lia)). rewrite (@mk_gvar_ok g _ _ (proj1 H) Hb). eexists; split; [reflexivity|]. split; [exact H | exact Hb]. }
  rewrite (mapM_enum_snd (fun a => mk_gvar a b) ws) in Ev. rewrite Ev. cbn [bind].
  apply (@cdiv_prep g o (fun _ => o) (fun a => cdF g a F) vs Hw Hd).
  - split; [lia|]. intros i Hi. apply Hv. lia.
  - intros i Hi. apply periodic_cdF. exact HF.
  - intros i Hi. split; [exact Ho | apply off_eq_refl].
Qed.

Lemma col_projection_prep solve v q : periodic_vec g v -> collocated o v ->
  (forall b q0, perbc g b -> pressure_bc_from_velocity v = Ok b -> gbc q0 = b -> periodic_field q0 -> ggrid (garray q0) = g -> solve v q0 = Ok q) ->
  wf_garr q -> ggrid q = g -> off_eq (goff q) o ->
  exists w, col_projection solve v = Ok w /\ length w = gndim g /\
    forall i, (i < gndim g)%nat -> gbc (nth i w dgv) = gbc (nth i v dgv) /\ prep g o (fun ix => vval v i ix - cdF g i (pval q) ix)%R (garray (nth i w dgv)).
Proof.
  intros Hv Hcol Hs Hq Hgq Hoq. pose proof (periodic_vec_wfg Hd Hv) as Hw. pose proof Hv as (HLv & _).
  unfold col_projection. rewrite (@pvec_consistent g (fun _ => o) (vval v) v Hd). 2:{ split; [exact HLv|]. intros i Hi. apply (col_prep Hv Hcol Hi). }
  cbn [bind]. destruct (pressure_bc_periodic Hd Hv) as (b & Eb & Hb). rewrite Eb. cbn [bind].
  rewrite (@mk_gvar_ok g (mkga (afull (gshape g) 0%R) (cell_center g) g) b eq_refl Hb). cbn [bind].
  assert (Hq0 : periodic_field (mkgv (mkga (afull (gshape g) 0%R) (cell_center g) g) b)).
  { split; [split; [exact Hw | split; [reflexivity | apply cell_center_length]] | exact Hb]. }
  rewrite (Hs b (mkgv (mkga (afull (gshape g) 0%R) (cell_center g) g) b) Hb Eb eq_refl Hq0 eq_refl). cbn [bind].
  rewrite (@mk_gvar_ok g _ _ Hgq Hb). cbn [bind].
  assert (Hqv : pvar g o (pval q) (mkgv q b)).
  { split; [|exact Hb]. cbn [garray]. split; [exact Hgq|]. split; [exact Hoq|]. destruct Hq as (_ & S & _). split; [congruence|]. intros ix Hix. unfold pval. rewrite S, Hgq, wrap_inb by exact Hix. reflexivity. }
  assert (Hqper : periodic (gshape g) (pval q)) by (destruct Hq as (_ & S & _); rewrite <- Hgq, <- S; apply periodic_pval).
  destruct (col_gradient_prep Hw Hqper Hqv) as (gs & Eg & HLg & Hg). rewrite Eg. cbn [bind].
  destruct (@mapM_combine gvar garr gvar (fun uq => let* d := ga_sub (garray (fst uq)) (snd uq) in mk_gvar d (gbc (fst uq)))
    (fun i w => gbc w = gbc (nth i v dgv) /\ prep g o (fun ix => vval v i ix - cdF g i (pval q) ix)%R (garray w)) v gs dgv dga) as (w & E & HLw & Hww).
  - lia.
  - intros i Hi. cbn [fst snd]. assert (Hi' : (i < gndim g)%nat) by lia. destruct (col_prep Hv Hcol Hi') as (P & B).
    destruct (prep_op2 Rminus P (Hg i dga Hi')) as (d & Ed & Pd). unfold ga_sub. rewrite Ed. cbn [bind]. rewrite (@mk_gvar_ok g _ _ (proj1 Pd) B). eexists; split; [reflexivity|]. split; [reflexivity | exact Pd].
  - exists w. split; [exact E|]. split; [lia|]. intros i Hi. apply Hww. lia.
Qed.
End Col.

(* @prop C50 Collocated advect_linear of a periodic scalar by a velocity at the same points (any dimension) returns, at those points, minus the centred divergence of scalar times velocity, and its total is zero: the scheme conserves the scalar. *)
Lemma collocated_advect_spec_lem : forall c v, periodic_field c -> (0 < gndim (ggrid (garray c)))%nat ->
  periodic_vec (ggrid (garray c)) v -> homogeneous_vec v -> collocated (goff (garray c)) v ->
  exists w, col_advect_linear c v = Ok w /\
    is_field w (ggrid (garray c)) (goff (garray c)) (fun ix => - centred_div (ggrid (garray c)) (fun a jx => pval (garray c) jx * vval v a jx) ix)%R /\
    total (gdata w) = 0%R.
Proof.
  intros c v Hc Hd Hv Hh Hcol. pose proof (pf_off Hc) as Ho. pose proof (pf_wfg Hc) as Hw.
  destruct (@col_advect_prep _ _ Hd Ho c v Hc eq_refl (off_eq_refl _) Hv Hh Hcol) as (w & E & P). exists w. split; [exact E|]. split; [exact P|].
  rewrite (total_is P). rewrite (@asum_ext _ _ (fun ix => (-1) * cdivF (ggrid (garray c)) (fun a jx => pval (garray c) jx * vval v a jx) ix)%R) by (intros; ring).
  rewrite asum_scal, sum_cdivF; [ring | apply Hw |]. intros i Hi. apply periodic_mult; [apply (pf_per Hc) | apply (periodic_vval Hv Hi)].
Qed.

(* @prop C50 Collocated convect_linear of a periodic velocity (any dimension) returns for each component i, at the same points, minus the centred divergence of v_i times v; each component's total is zero (momentum is conserved), and the component agrees with advect_linear applied to it. *)
Lemma collocated_convect_spec_lem : forall g o v, (0 < gndim g)%nat -> length o = gndim g -> periodic_vec g v -> homogeneous_vec v -> collocated o v ->
  exists l, col_convect_linear v = Ok l /\ length l = gndim g /\
    forall i u w, nth_error v i = Some u -> nth_error l i = Some w ->
      is_field w g o (fun ix => - centred_div g (fun a jx => vval v i jx * vval v a jx) ix)%R /\ total (gdata w) = 0%R /\
      exists w', col_advect_linear u v = Ok w' /\ forall ix, inb (gshape g) ix -> get (gdata w') ix = get (gdata w) ix.
Proof.
  intros g o v Hd Ho Hv Hh Hcol. destruct (@col_convect_prep g o Hd Ho v Hv Hh Hcol) as (l & E & HL & H). exists l. split; [exact E|]. split; [exact HL|].
  intros i u w Hu Hwi. assert (Hi : (i < gndim g)%nat) by (rewrite <- HL; apply nth_error_Some; congruence). specialize (H i Hi). rewrite (nth_error_nth _ _ _ Hwi) in H.
  split; [exact H|]. split.
  - rewrite (total_is H). rewrite (@asum_ext _ _ (fun ix => (-1) * cdivF g (fun a jx => vval v i jx * vval v a jx) ix)%R) by (intros; ring).
    rewrite asum_scal, sum_cdivF; [ring | apply (periodic_vec_wfg Hd Hv) |]. intros j Hj. apply periodic_mult; apply (periodic_vval Hv); assumption.
  - destruct (periodic_vec_nth Hv Hi) as (Hp & Hg). pose proof (col_prep Hv Hcol Hi) as ((_ & Po & _) & _). rewrite (nth_error_nth _ _ _ Hu) in *.
    destruct (@col_advect_prep g o Hd Ho u v Hp Hg Po Hv Hh Hcol) as (w' & E' & (_ & _ & _ & V)). exists w'. split; [exact E'|].
    intros ix Hix. destruct H as (_ & _ & _ & H). rewrite V, H by exact Hix. f_equal. unfold cdivF, cdF. apply nsum_ext. intros a Ha. unfold vval at 3 5. rewrite Hu. reflexivity.
Qed.

(* @prop C50 Collocated diffuse raises ValueError if an axis of the scalar is not periodic (judged by its lower side); on periodic scalars (any dimension, any viscosity) it returns viscosity times the centred divergence of the centred gradient, which totals to zero, and sum(c * diffuse(c)) = -viscosity * sum |centred gradient|^2, so a nonnegative viscosity never creates variance. *)
Lemma collocated_diffuse_spec_lem : forall c nu, 
  ((exists a, (a < gndim (ggrid (garray c)))%nat /\ fst (nth a (btypes (gbc c)) (BCOther, BCOther)) <> Periodic) -> col_diffuse c nu = Err EValue) /\
  (periodic_field c -> (0 < gndim (ggrid (garray c)))%nat -> exists w, col_diffuse c nu = Ok w /\
    is_field w (ggrid (garray c)) (goff (garray c)) (fun ix => nu * centred_laplacian (ggrid (garray c)) (pval (garray c)) ix)%R /\
    total (gdata w) = 0%R /\
    (asum (gshape (ggrid (garray c))) (fun ix => pval (garray c) ix * get (gdata w) ix) =
      - nu * nsum (gndim (ggrid (garray c))) (fun a => asum (gshape (ggrid (garray c))) (fun ix => centred_difference (ggrid (garray c)) a (pval (garray c)) ix ^ 2)))%R /\
    ((0 <= nu)%R -> (asum (gshape (ggrid (garray c))) (fun ix => pval (garray c) ix * get (gdata w) ix) <= 0)%R)).
Proof.
  intros c nu. split.
  - intros (a & Ha & Hb). unfold col_diffuse. replace (has_all_periodic [c]) with false; [reflexivity|]. symmetry.
    unfold has_all_periodic. cbn [forallb]. rewrite andb_true_r. apply not_true_is_false. intros H. rewrite forallb_forall in H. specialize (H a). apply Hb.
    assert (Hin : In a (seq 0 (gndim (ggrid (garray c))))) by (apply in_seq; lia). specialize (H Hin). unfold is_periodic_bc, btype in H. 
    destruct (nth a (btypes (gbc c)) (BCOther, BCOther)) as [t1 t2]. cbn [fst] in *. destruct t1; try discriminate; reflexivity.
  - intros Hc Hd. set (g := ggrid (garray c)) in *. pose proof (pf_off Hc) as Ho. pose proof (pf_wfg Hc) as Hw. fold g in Hw, Ho.
    assert (Hap : has_all_periodic [c] = true).
    { unfold has_all_periodic. cbn [forallb]. rewrite andb_true_r. apply forallb_forall. intros a Ha. apply in_seq in Ha. destruct Hc as (_ & Hb). unfold is_periodic_bc, btype. rewrite Hb, nth_repeat' by (exact (proj2 Ha)). reflexivity. }
    pose proof (pf_per Hc) as Per. fold g in Per. pose proof (pf_pvar Hc) as Pc. fold g in Pc.
    destruct (@col_laplacian_prep g (goff (garray c)) Hd Ho (pval (garray c)) c (gbc c) Hw Per (proj2 Hc) Pc) as (l & El & Pl).
    unfold col_diffuse. rewrite Hap. cbn [negb]. rewrite El. cbn [bind]. unfold ga_scale. destruct (prep_scalar_l Rmult nu Pl) as (w & Ew & Pw).
    exists w. split; [exact Ew|]. split; [exact Pw|].
    assert (Hpc : forall i, (i < gndim g)%nat -> periodic (gshape g) (cdF g i (pval (garray c)))) by (intros; apply periodic_cdF; exact Per).
    assert (Eq : asum (gshape g) (fun ix => pval (garray c) ix * get (gdata w) ix)%R = (- nu * nsum (gndim g) (fun a => asum (gshape g) (fun ix => centred_difference g a (pval (garray c)) ix ^ 2)))%R).
    { rewrite (@asum_ext _ _ (fun ix => nu * (pval (garray c) ix * cdivF g (fun a => cdF g a (pval (garray c))) ix))%R).
      - rewrite asum_scal. rewrite (@csbp_all g (pval (garray c)) (fun a => cdF g a (pval (garray c)))) by (auto; apply Hw). match goal with |- (nu * - ?A = - nu * ?B)%R => replace A with B; [ring|] end. apply nsum_ext. intros i Hi. apply asum_ext. intros ix _. unfold centred_difference, cdF, next, prev. ring.
      - intros ix Hix. destruct Pw as (_ & _ & _ & V). rewrite V by exact Hix. ring. }
    split.
    { rewrite (total_is Pw), asum_scal, sum_cdivF; [ring | apply Hw | exact Hpc]. }
    split; [exact Eq|]. intros Hnu. rewrite Eq.
    assert (N : (0 <= nsum (gndim g) (fun a => asum (gshape g) (fun ix => centred_difference g a (pval (garray c)) ix ^ 2)))%R).
    { apply nsum_nonneg. intros i Hi. apply asum_nonneg. intros ix _. rewrite <- Rsqr_pow2. apply Rle_0_sqr. }
    pose proof (Rmult_le_pos _ _ Hnu N). lra.
Qed.

(* @prop C50 Collocated projection, for every solver that returns at the velocity's points a field q whose centred Laplacian is the centred divergence of the velocity: it succeeds on every periodic collocated velocity (any dimension), keeps offsets and boundary conditions, subtracts exactly the centred gradient of q, the result has zero centred divergence in every cell, and its kinetic energy is that of v minus the sum of |grad q|^2: never larger. *)
Lemma collocated_projection_lem : forall g o v solve q, (0 < gndim g)%nat -> length o = gndim g -> periodic_vec g v -> collocated o v ->
  (forall q0, periodic_field q0 -> ggrid (garray q0) = g -> solve v q0 = Ok q) -> wf_garr q -> ggrid q = g -> off_eq (goff q) o ->
  (forall ix, inb (gshape g) ix -> centred_laplacian g (pval q) ix = centred_div g (vval v) ix) ->
  exists v' d, col_projection solve v = Ok v' /\ periodic_vec g v' /\ collocated o v' /\ map gbc v' = map gbc v /\
    (forall i ix, (i < gndim g)%nat -> inb (gshape g) ix -> vval v' i ix = (vval v i ix - centred_difference g i (pval q) ix)%R) /\
    centered_divergence v' = Ok d /\ is_field d g o (fun _ => 0%R) /\
    (kinetic g (vval v') + nsum (gndim g) (fun a => asum (gshape g) (fun ix => centred_difference g a (pval q) ix ^ 2)) = kinetic g (vval v))%R /\
    (kinetic g (vval v') <= kinetic g (vval v))%R.
Proof.
  intros g o v solve q Hd Ho Hv Hcol Hs Hq Hgq Hoq Heq. pose proof (periodic_vec_wfg Hd Hv) as Hw. pose proof Hv as (HLv & _).
  destruct (@col_projection_prep g o Hd Ho solve v q Hv Hcol) as (w & E & HL & H); auto.
  assert (Hqper : periodic (gshape g) (pval q)) by (destruct Hq as (_ & S & _); rewrite <- Hgq, <- S; apply periodic_pval).
  assert (Hpw : periodic_vec g w).
  { split; [exact HL|]. apply Forall_forall. intros x Hx. apply (In_nth _ _ dgv) in Hx. destruct Hx as (i & Hi & <-). rewrite HL in Hi. destruct (H i Hi) as (B & (G1 & G2 & G3 & _)).
    split; [|exact G1]. split; [split; [rewrite G1; exact Hw|]; split; [congruence | rewrite (off_eq_length G2), G1; exact Ho]|]. rewrite G1, B. apply (col_prep Hv Hcol Hi). }
  assert (Hcw : collocated o w).
  { apply Forall_forall. intros x Hx. apply (In_nth _ _ dgv) in Hx. destruct Hx as (i & Hi & <-). rewrite HL in Hi. apply (H i Hi). }
  assert (Hval : forall i ix, (i < gndim g)%nat -> length ix = gndim g -> vval w i ix = (vval v i ix - cdF g i (pval q) ix)%R).
  { intros i ix Hi. revert ix. apply (@periodic_ext_all (gshape g) (vval w i) (fun ix => vval v i ix - cdF g i (pval q) ix)%R).
    - apply Hw.
    - apply (periodic_vval Hpw Hi).
    - intros ix HLx. rewrite (periodic_vval Hv Hi) by auto. rewrite (@periodic_cdF g i _ Hqper) by auto. reflexivity.
    - intros ix Hix. destruct (H i Hi) as (_ & (_ & _ & _ & V)). rewrite <- V by exact Hix. destruct (col_prep Hpw Hcw Hi) as ((_ & _ & _ & V') & _). symmetry. apply V'. exact Hix. }
  destruct (@cdiv_prep g o (fun _ => o) (vval w) w Hw Hd) as (d & Ed & Pd).
  { split; [exact HL|]. intros i Hi. apply (col_prep Hpw Hcw Hi). }
  { intros i Hi. apply (periodic_vval Hpw Hi). }
  { intros i Hi. split; [exact Ho | apply off_eq_refl]. }
  assert (Z : forall ix, inb (gshape g) ix -> cdivF g (vval w) ix = 0%R).
  { intros ix Hix. pose proof (inb_length _ _ Hix) as HLx. specialize (Heq ix Hix). change (cdivF g (fun a => cdF g a (pval q)) ix = cdivF g (vval v) ix) in Heq.
    transitivity (cdivF g (vval v) ix - cdivF g (fun a => cdF g a (pval q)) ix)%R; [|rewrite Heq; ring]. unfold cdivF. rewrite <- nsum_minus. apply nsum_ext. intros i Hi.
    unfold cdF at 1 2 3. rewrite !Hval by (auto; rewrite shiftix_length; exact HLx). unfold Rdiv. ring. }
  assert (K : (kinetic g (vval w) + nsum (gndim g) (fun a => asum (gshape g) (fun ix => centred_difference g a (pval q) ix ^ 2)) = kinetic g (vval v))%R).
  { (* sum v' . grad q = - sum q div v' = 0 *)
    assert (X : nsum (gndim g) (fun i => asum (gshape g) (fun ix => cdF g i (pval q) ix * vval w i ix)%R) = 0%R).
    { pose proof (@csbp_all g (pval q) (vval w) ltac:(apply Hw) Hqper ltac:(intros; apply (periodic_vval Hpw); assumption)) as S.
      rewrite (@asum_ext _ _ (fun _ => 0%R)) in S by (intros ix Hix; rewrite Z by exact Hix; ring). rewrite asum_0 in S. lra. }
    unfold kinetic. transitivity (nsum (gndim g) (fun i => asum (gshape g) (fun ix => vval v i ix ^ 2)) - 2 * nsum (gndim g) (fun i => asum (gshape g) (fun ix => cdF g i (pval q) ix * vval w i ix)))%R; [|rewrite X; ring].
    rewrite <- nsum_scal, <- nsum_minus, <- nsum_plus. apply nsum_ext. intros i Hi. rewrite <- asum_scal, <- asum_minus, <- asum_plus. apply asum_ext. intros ix Hix.
    rewrite !Hval by (auto; exact (inb_length _ _ Hix)). change (centred_difference g i (pval q) ix) with (cdF g i (pval q) ix). ring. }
  exists w, d. split; [exact E|]. split; [exact Hpw|]. split; [exact Hcw|]. split.
  { apply (list_ext_nth (gbc dgv)); rewrite !map_length; [lia|]. intros k Hk. rewrite !map_nth. apply H. lia. }
  split; [intros i ix Hi Hix; apply Hval; [exact Hi | exact (inb_length _ _ Hix)]|]. split; [exact Ed|]. split; [eapply prep_ext; [exact Z | exact Pd]|]. split; [exact K|].
  assert (N : (0 <= nsum (gndim g) (fun a => asum (gshape g) (fun ix => centred_difference g a (pval q) ix ^ 2)))%R).
  { apply nsum_nonneg. intros i Hi. apply asum_nonneg. intros ix _. rewrite <- Rsqr_pow2. apply Rle_0_sqr. }
  lra.
Qed.

(* @prop C50 Collocated solve_cg gives conjugate gradients the centred divergence of the velocity as right-hand side and an operator that raises ValueError if an axis of q0 is not periodic and otherwise is the centred divergence of the centred gradient; so if cg returns a field on which that operator takes the value of the right-hand side, the result satisfies the equation projection needs. *)
Lemma collocated_solve_cg_lem : forall cg v q0,
  ((exists a, (a < gndim (ggrid (garray q0)))%nat /\ fst (nth a (btypes (gbc q0)) (BCOther, BCOther)) <> Periodic) -> forall a, col_laplacian_with_bcs q0 a = Err EValue) /\
  (forall g o, (0 < gndim g)%nat -> length o = gndim g -> periodic_vec g v -> collocated o v -> periodic_field q0 -> ggrid (garray q0) = g ->
    (forall rhs, centered_divergence v = Ok rhs -> exists x, cg (col_laplacian_with_bcs q0) rhs (garray q0) = Ok x /\ wf_garr x /\ ggrid x = g /\ off_eq (goff x) o /\
       forall y, col_laplacian_with_bcs q0 x = Ok y -> aeq (gdata y) (gdata rhs)) ->
    exists q, col_solve_cg cg v q0 = Ok q /\ wf_garr q /\ ggrid q = g /\ off_eq (goff q) o /\
      forall ix, inb (gshape g) ix -> centred_laplacian g (pval q) ix = centred_div g (vval v) ix).
Proof.
  intros cg v q0. split.
  - intros (a & Ha & Hb) x. unfold col_laplacian_with_bcs. replace (has_all_periodic [q0]) with false; [reflexivity|]. symmetry.
    unfold has_all_periodic. cbn [forallb]. rewrite andb_true_r. apply not_true_is_false. intros H. rewrite forallb_forall in H. specialize (H a). apply Hb.
    assert (Hin : In a (seq 0 (gndim (ggrid (garray q0))))) by (apply in_seq; lia). specialize (H Hin). unfold is_periodic_bc, btype in H.
    destruct (nth a (btypes (gbc q0)) (BCOther, BCOther)) as [t1 t2]. cbn [fst] in *. destruct t1; try discriminate; reflexivity.
  - intros g o Hd Ho Hv Hcol Hq0 Hg0 Hcg. pose proof (periodic_vec_wfg Hd Hv) as Hw. pose proof Hv as (HLv & _). unfold col_solve_cg.
    destruct (@cdiv_prep g o (fun _ => o) (vval v) v Hw Hd) as (rhs & Er & Pr).
    { split; [exact HLv|]. intros i Hi. apply (col_prep Hv Hcol Hi). } { intros i Hi. apply (periodic_vval Hv Hi). } { intros i Hi. split; [exact Ho | apply off_eq_refl]. }
    rewrite Er. cbn [bind]. destruct (Hcg rhs Er) as (x & Ex & X1 & X2 & X3 & X4). exists x. split; [exact Ex|]. split; [exact X1|]. split; [exact X2|]. split; [exact X3|].
    pose proof (proj2 Hq0) as Hb. rewrite Hg0 in Hb.
    assert (Hap : has_all_periodic [q0] = true).
    { unfold has_all_periodic. cbn [forallb]. rewrite andb_true_r. apply forallb_forall. intros a Ha. apply in_seq in Ha. unfold is_periodic_bc, btype. rewrite Hb, nth_repeat' by (rewrite <- Hg0; exact (proj2 Ha)). reflexivity. }
    unfold col_laplacian_with_bcs in X4. rewrite Hap in X4. cbn [negb] in X4. rewrite (@mk_gvar_ok g _ _ X2 Hb) in X4. cbn [bind] in X4.
    assert (Hxp : periodic (gshape g) (pval x)) by (destruct X1 as (_ & S & _); rewrite <- X2, <- S; apply periodic_pval).
    destruct (@col_laplacian_prep g o Hd Ho (pval x) (mkgv x (gbc q0)) (gbc q0) Hw Hxp Hb) as (y & Ey & (_ & _ & Sy & Vy)).
    { split; [|exact Hb]. cbn [garray]. split; [exact X2|]. split; [exact X3|]. destruct X1 as (_ & S & _). split; [congruence|]. intros ix Hix. unfold pval. rewrite S, X2, wrap_inb by exact Hix. reflexivity. }
    destruct (X4 y Ey) as (_ & A). intros ix Hix. change (cdivF g (fun a => cdF g a (pval x)) ix = cdivF g (vval v) ix). rewrite <- Vy by exact Hix. rewrite A by (rewrite Sy; exact Hix). apply Pr. exact Hix.
Qed.

(** ** examples: a line of three cells, where q = -(4/3) h^2 div v solves the centred Poisson equation *)
Definition c3g : grid := mkgrid [3%nat] [1%R] [(0%R, 3%R)].
Definition c3o : list Q := [(1 # 2)%Q].
Definition c3v : list gvar := [mkgv (mkga (mkarr [3%nat] (fun ix => if nth 0 ix 0 =? 0 then 6%R else if nth 0 ix 0 =? 1 then 2%R else 0%R)) c3o c3g) (periodic_bc 1)].
Definition c3c : gvar := mkgv (mkga (mkarr [3%nat] (fun ix => if nth 0 ix 0 =? 1 then 5%R else 1%R)) c3o c3g) (periodic_bc 1).
Definition c3_solve (v : list gvar) (_ : gvar) : result garr := let* d := centered_divergence v in ga_scale (- (4 / 3)) d.
Lemma c3_pv : collocated_velocity c3g c3o [periodic_bc 1] c3v.
Proof.
  split; [|split; [|split; [|reflexivity]]].
  - split; [reflexivity|]. repeat constructor; (lia || lra).
  - repeat constructor.
  - repeat constructor.
Qed.
Lemma c3_wfg : wfg c3g.
Proof. repeat constructor; (lia || lra). Qed.
Lemma c3_cd F ix : centred_difference c3g 0 F ix = ((F (next 0 ix) - F (prev 0 ix)) / 2)%R.
Proof. unfold centred_difference, hstep. cbn [gstep c3g nth]. f_equal. lra. Qed.
Lemma inb3 ix : inb [3%nat] ix -> ix = [0] \/ ix = [1] \/ ix = [2].
Proof. destruct ix as [|i [|j ix]]; cbn [inb]; intros H; try tauto. assert (i = 0 \/ i = 1 \/ i = 2) as [-> | [-> | ->]] by lia; auto. Qed.
Lemma c3_per (F : list Z -> R) : periodic [3%nat] F -> F [-2] = F [1] /\ F [-1] = F [2] /\ F [3] = F [0] /\ F [4] = F [1].
Proof. intros H. repeat apply conj; match goal with |- F ?a = F ?b => exact (eq_sym (H a eq_refl)) end. Qed.
Lemma c3_solves : solves_centred_poisson c3g c3o c3_solve.
Proof.
  intros v Hv Hcol.
  assert (Hd : (0 < gndim c3g)%nat) by (cbn; lia). assert (Ho : length c3o = gndim c3g) by reflexivity.
  destruct (@cdiv_prep c3g c3o (fun _ => c3o) (vval v) v c3_wfg Hd) as (d & Ed & Pd).
  { split; [apply Hv|]. intros i Hi. apply (col_prep Hv Hcol Hi). }
  { intros i Hi. apply (periodic_vval Hv Hi). }
  { intros i Hi. split; [exact Ho | apply off_eq_refl]. }
  destruct (prep_scalar_l Rmult (- (4 / 3)) Pd) as (q & Eq & Pq). exists q.
  destruct Pq as (Q1 & Q2 & Q3 & Q4). 
  split; [intros q0 _ _; unfold c3_solve; rewrite Ed; exact Eq|].
  assert (W : wf_garr q). { split; [rewrite Q1; exact c3_wfg|]. split; [rewrite Q1; exact Q3|]. rewrite (off_eq_length Q2), Q1. reflexivity. }
  split; [exact W|]. split; [exact Q1|]. split; [exact Q2|].
  set (V := vval v 0). assert (PV : periodic [3%nat] V) by (apply (periodic_vval Hv Hd)).
  assert (PQ : periodic [3%nat] (pval q)). { change [3%nat] with (gshape c3g). rewrite <- Q3. apply periodic_pval. }
  destruct (c3_per PV) as (V1 & V2 & V3 & V4). destruct (c3_per PQ) as (P1 & P2 & P3 & P4).
  assert (Qv : forall i, (0 <= i < 3) -> pval q [i] = (- (4 / 3) * ((V [(i + 1)%Z] - V [(i + -1)%Z]) / 2))%R).
  { intros i Hi. unfold pval. rewrite Q3. rewrite wrap_inb by (cbn [inb gshape c3g]; split; [lia | exact I]). rewrite Q4 by (cbn [inb gshape c3g]; split; [lia | exact I]).
    f_equal. unfold cdivF. change (gndim c3g) with 1%nat. unfold nsum. cbn [seq map lsum]. change (cdF c3g 0 (vval v 0) [i]) with (centred_difference c3g 0 V [i]). rewrite c3_cd. unfold lsum. cbn [fold_right]. unfold next, prev, shiftix. cbn [nth upd]. lra. }
  pose proof (Qv 0 ltac:(lia)) as E0. pose proof (Qv 1 ltac:(lia)) as E1. pose proof (Qv 2 ltac:(lia)) as E2.
  change (0 + 1) with 1 in *. change (0 + -1) with (-1) in *. change (1 + 1) with 2 in *. change (1 + -1) with 0 in *. change (2 + 1) with 3 in *. change (2 + -1) with 1 in *. rewrite ?V2, ?V3 in E0, E1, E2.
  intros ix Hix. unfold centred_laplacian, centred_div. change (gndim c3g) with 1%nat. unfold nsum. cbn [seq map]. rewrite !c3_cd. unfold next, prev, lsum. cbn [fold_right]. rewrite ?c3_cd. unfold next, prev. rewrite !shiftix_add.
  unfold shiftix. apply inb3 in Hix. change (1 + 1) with 2. change (-1 + 1) with 0. change (1 + -1) with 0. change (-1 + -1) with (-2).
  change (vval v 0) with V. destruct Hix as [-> | [-> | ->]]; cbn [nth upd];
   repeat match goal with |- context [?a + ?b] => let c := eval vm_compute in (a + b) in change (a + b) with c end;
   rewrite ?P1, ?P2, ?P3, ?P4, ?V1, ?V2, ?V3, ?V4; lra.
Qed.
(* @ex *)
Lemma collocated_advect_spec_ex_lem : periodic_field c3c /\ (0 < gndim (ggrid (garray c3c)))%nat /\ periodic_vec (ggrid (garray c3c)) c3v /\ homogeneous_vec c3v /\ collocated (goff (garray c3c)) c3v /\
  centred_div c3g (fun a jx => pval (garray c3c) jx * vval c3v a jx)%R [0] = 5%R.
Proof.
  split; [repeat split; repeat constructor; (lia || lra)|]. split; [cbn; lia|]. split; [apply c3_pv|]. split; [apply c3_pv|]. split; [apply c3_pv|].
  unfold centred_div. change (gndim c3g) with 1%nat. unfold nsum, lsum. cbn [seq map fold_right]. rewrite c3_cd. cbn. lra.
Qed.
(* @ex *)
Lemma collocated_convect_spec_ex_lem : (0 < gndim c3g)%nat /\ length c3o = gndim c3g /\ periodic_vec c3g c3v /\ homogeneous_vec c3v /\ collocated c3o c3v /\
  centred_div c3g (fun a jx => vval c3v 0 jx * vval c3v a jx)%R [1] = (-18)%R.
Proof.
  split; [cbn; lia|]. split; [reflexivity|]. split; [apply c3_pv|]. split; [apply c3_pv|]. split; [apply c3_pv|].
  unfold centred_div. change (gndim c3g) with 1%nat. unfold nsum, lsum. cbn [seq map fold_right]. rewrite c3_cd. cbn. lra.
Qed.
(* @ex *)
Lemma collocated_diffuse_spec_ex_lem : periodic_field c3c /\ (0 < gndim (ggrid (garray c3c)))%nat /\ centred_laplacian c3g (pval (garray c3c)) [1] = (-2)%R /\
  exists c, (exists a, (a < gndim (ggrid (garray c)))%nat /\ fst (nth a (btypes (gbc c)) (BCOther, BCOther)) <> Periodic).
Proof.
  split; [repeat split; repeat constructor; (lia || lra)|]. split; [cbn; lia|]. split.
  - unfold centred_laplacian, centred_div. change (gndim c3g) with 1%nat. unfold nsum, lsum. cbn [seq map fold_right]. rewrite !c3_cd. cbn. lra.
  - exists (mkgv (garray c3c) (dirichlet_bc 1 None)). exists 0%nat. split; [cbn; lia|]. cbn. discriminate.
Qed.
(* @ex *)
Lemma collocated_projection_ex_lem : exists q, (0 < gndim c3g)%nat /\ length c3o = gndim c3g /\ periodic_vec c3g c3v /\ collocated c3o c3v /\
  (forall q0, periodic_field q0 -> ggrid (garray q0) = c3g -> c3_solve c3v q0 = Ok q) /\ wf_garr q /\ ggrid q = c3g /\ off_eq (goff q) c3o /\
  (forall ix, inb (gshape c3g) ix -> centred_laplacian c3g (pval q) ix = centred_div c3g (vval c3v) ix) /\ centred_div c3g (vval c3v) [0] = 1%R.
Proof.
  destruct (c3_solves (proj1 c3_pv) (proj1 (proj2 (proj2 c3_pv)))) as (q & Q1 & Q2 & Q3 & Q4 & Q5). exists q. split; [cbn; lia|]. split; [reflexivity|]. split; [apply c3_pv|]. split; [apply c3_pv|].
  split; [exact Q1|]. split; [exact Q2|]. split; [exact Q3|]. split; [exact Q4|]. split; [exact Q5|].
  unfold centred_div. change (gndim c3g) with 1%nat. unfold nsum, lsum. cbn [seq map fold_right]. rewrite c3_cd. cbn. lra.
Qed.
(* @ex *)
Lemma collocated_solve_cg_ex_lem : exists x, (0 < gndim c3g)%nat /\ length c3o = gndim c3g /\ periodic_vec c3g c3v /\ collocated c3o c3v /\ periodic_field c3c /\ ggrid (garray c3c) = c3g /\
  c3_solve c3v c3c = Ok x /\ wf_garr x /\ ggrid x = c3g /\ off_eq (goff x) c3o /\
  forall y, col_laplacian_with_bcs c3c x = Ok y -> forall d, centered_divergence c3v = Ok d -> aeq (gdata y) (gdata d).
Proof.
  assert (Hc : periodic_field c3c) by (repeat split; repeat constructor; (lia || lra)).
  destruct (c3_solves (proj1 c3_pv) (proj1 (proj2 (proj2 c3_pv)))) as (q & Q1 & Q2 & Q3 & Q4 & Q5). exists q. split; [cbn; lia|]. split; [reflexivity|]. split; [apply c3_pv|]. split; [apply c3_pv|].
  split; [exact Hc|]. split; [reflexivity|]. split; [apply Q1; [exact Hc | reflexivity]|]. split; [exact Q2|]. split; [exact Q3|]. split; [exact Q4|].
  assert (Hd : (0 < gndim c3g)%nat) by (cbn; lia).
  assert (Hpb : perbc c3g (gbc c3c)) by reflexivity. intros y Ey d Ed. unfold col_laplacian_with_bcs in Ey. change (has_all_periodic [c3c]) with true in Ey. cbn [negb] in Ey. rewrite (@mk_gvar_ok c3g _ _ Q3 Hpb) in Ey. cbn [bind] in Ey.
  assert (Hxp : periodic (gshape c3g) (pval q)) by (destruct Q2 as (_ & S & _); rewrite <- Q3, <- S; apply periodic_pval).
  destruct (@col_laplacian_prep c3g c3o Hd eq_refl (pval q) (mkgv q (gbc c3c)) (gbc c3c) c3_wfg Hxp Hpb) as (y' & Ey' & (_ & _ & Sy & Vy)).
  { split; [|exact Hpb]. cbn [garray]. split; [exact Q3|]. split; [exact Q4|]. destruct Q2 as (_ & S & _). split; [congruence|]. intros ix Hix. unfold pval. rewrite S, Q3, wrap_inb by exact Hix. reflexivity. }
  rewrite Ey in Ey'. injection Ey' as <-.
  destruct (@cdiv_prep c3g c3o (fun _ => c3o) (vval c3v) c3v c3_wfg Hd) as (d' & Ed' & (_ & _ & Sd & Vd)).
  { split; [reflexivity|]. intros i Hi. apply (col_prep (proj1 c3_pv) (proj1 (proj2 (proj2 c3_pv))) Hi). }
  { intros i Hi. apply (periodic_vval (proj1 c3_pv) Hi). }
  { intros i Hi. split; [reflexivity | apply off_eq_refl]. }
  rewrite Ed in Ed'. injection Ed' as <-. split; [congruence|]. intros ix Hix. rewrite Sy in Hix. rewrite Vy, Vd by exact Hix. apply Q5. exact Hix.
Qed.
