(** * C50: the collocated time step, examples, and what the wide stencil cannot see *)
From Verif Require Import Prelude NdArr Grids_model Spec SpecCol Boundaries_model BoundariesPeriodic FD_model PRep FDProofs FDProps GridProps Pressure_model PressureProps Interp_model InterpProofs InterpProps Advection_model AdvectionProofs AdvectionProps ConvectProps Equations_model SpecNS EquationsProps EquationsMoreProps Collocated_model CollocatedProps ArrayUtilsProps.
Set Implicit Arguments.
Local Open Scope Z_scope.

Lemma default_convect_any g v dt : (0 < gndim g)%nat -> periodic_vec g v -> homogeneous_vec v ->
  exists lc C, default_convect dt v = Ok lc /\ fields_at g v lc C /\ forall i, (i < gndim g)%nat -> asum (gshape g) (C i) = 0%R.
Proof.
  intros Hd Hv Hh. pose proof Hv as (HL & _).
  destruct (@mapM_enum gvar garr (fun iu => advect_van_leer_using_limiters (snd iu) v dt)
    (fun i w => prep g (goff (garray (nth i v dgv))) (get (gdata w)) w /\ total (gdata w) = 0%R) v dgv) as (lc & E & HLc & Hc).
  { intros i Hi. cbn [snd]. assert (Hi' : (i < gndim g)%nat) by lia. destruct (periodic_vec_nth Hv Hi') as (Hp & Hg).
    destruct (@advect_limited_flux_form_lem van_leer_limiter (nth i v dgv) v dt Hp) as (w & Ew & (A & B & C & _)); [congruence | rewrite Hg; exact Hv | exact Hh|].
    destruct (@advection_schemes_conserve_lem (nth i v dgv) v dt Hp) as (_ & _ & w' & Ew' & T); [congruence | rewrite Hg; exact Hv | exact Hh|].
    unfold advect_van_leer_using_limiters in Ew' |- *. rewrite Ew in Ew'. injection Ew' as <-. exists w. split; [exact Ew|]. split; [|exact T].
    rewrite Hg in *. repeat split; auto. }
  exists lc, (fun i => get (gdata (nth i lc dga))). split; [|split].
  - unfold default_convect. rewrite <- E. symmetry. apply (mapM_enum_snd (fun u => advect_van_leer_using_limiters u v dt)).
  - apply fields_at_intro; [exact HLc|]. intros i Hi. apply (Hc i dga Hi).
  - intros i Hi. destruct (Hc i dga ltac:(lia)) as (P & T). rewrite (total_is P) in T. exact T.
Qed.

Lemma cv_intro g o v w (F : nat -> list Z -> R) : (0 < gndim g)%nat -> length o = gndim g -> periodic_vec g v -> homogeneous_vec v -> length w = gndim g ->
  (forall i, (i < gndim g)%nat -> gbc (nth i w dgv) = gbc (nth i v dgv) /\ prep g o (F i) (garray (nth i w dgv))) ->
  periodic_vec g w /\ homogeneous_vec w /\ collocated o w /\ map gbc w = map gbc v.
Proof.
  intros Hd Ho Hv Hh HL H. pose proof (periodic_vec_wfg Hd Hv) as Hw. pose proof Hv as (HLv & _).
  split; [|split; [|split]].
  - split; [exact HL|]. apply Forall_forall. intros x Hx. apply (In_nth _ _ dgv) in Hx. destruct Hx as (i & Hi & <-). rewrite HL in Hi. destruct (H i Hi) as (B & (G1 & G2 & G3 & _)).
    split; [|exact G1]. split; [split; [rewrite G1; exact Hw|]; split; [congruence | rewrite (off_eq_length G2), G1; exact Ho]|]. rewrite G1, B.
    destruct (periodic_vec_nth Hv Hi) as ((_ & Hb) & Hg). rewrite Hg in Hb. exact Hb.
  - apply Forall_forall. intros x Hx. apply (In_nth _ _ dgv) in Hx. destruct Hx as (i & Hi & <-). rewrite HL in Hi. destruct (H i Hi) as (B & _). rewrite B. apply (col_hom Hv Hh Hi).
  - apply Forall_forall. intros x Hx. apply (In_nth _ _ dgv) in Hx. destruct Hx as (i & Hi & <-). rewrite HL in Hi. destruct (H i Hi) as (_ & (_ & G2 & _)). exact G2.
  - apply (list_ext_nth (gbc dgv)); rewrite !map_length; [lia|]. intros k Hk. rewrite !map_nth. apply H. lia.
Qed.

(* @prop C50 The collocated time step with its default convection (van Leer) and diffusion, for every periodic collocated velocity (any dimension), viscosity (or none), dt, forcing that returns one field per component, and every pressure solver that solves the centred Poisson equation: it succeeds, keeps grid, offsets and boundary conditions, its result has zero centred divergence in every cell, and the total of each component changes by exactly dt times the total force divided by the density. *)
Lemma collocated_step_lem : forall g o bs density viscosity dt solve forcing v, (0 < gndim g)%nat -> length o = gndim g ->
  collocated_velocity g o bs v -> (viscosity <> None -> density <> 0%R) -> solves_centred_poisson g o solve ->
  (forall f, forcing = Some f -> exists lf Fo, f v = Ok lf /\ fields_at g v lf Fo) ->
  exists v' d, col_navier_stokes density viscosity dt (default_convect dt) col_diffuse solve forcing v = Ok v' /\
    collocated_velocity g o bs v' /\ centered_divergence v' = Ok d /\ is_field d g o (fun _ => 0%R) /\
    forall i, (i < gndim g)%nat -> momentum v' i = (momentum v i + dt *
      match forcing with Some f => match f v with Ok lf => component_total lf i / density | Err _ => 0 end | None => 0 end)%R.
Proof.
  intros g o bs density viscosity dt solve forcing v Hd Ho (Hv & Hh & Hcol & Hbs) Hden Hsolve HF. pose proof (periodic_vec_wfg Hd Hv) as Hw. pose proof Hv as (HLv & _).
  destruct (@default_convect_any g v dt Hd Hv Hh) as (lc & C & Ec & Hc & Sc).
  assert (HF' : exists Fo, forall f, forcing = Some f -> exists lf, f v = Ok lf /\ fields_at g v lf Fo).
  { destruct forcing as [f|]; [|exists (fun _ _ => 0%R); discriminate]. destruct (HF f eq_refl) as (lf & Fo & E & H). exists Fo. intros f' E'. injection E' as <-. eauto. }
  destruct HF' as (Fo & HF').
  set (D := fun i ix => match viscosity with Some nu => (nu / density) * centred_laplacian g (vval v i) ix | None => 0 end%R).
  set (Ff := fun i ix => match forcing with Some _ => (Fo i ix / density)%R | None => 0%R end).
  unfold col_navier_stokes. rewrite Ec. cbn [bind].
  assert (S1 : exists ld, match viscosity with None => Ok [] | Some nu => let* d := mapM (fun u => let* k := py_div nu density in col_diffuse u k) v in Ok [d] end = Ok ld /\
     (length ld <= 1)%nat /\ (forall l, In l ld -> fields_at g v l D) /\ (ld = [] -> forall i ix, D i ix = 0%R)).
  { destruct viscosity as [nu|].
    - assert (Hden' : density <> 0%R) by (apply Hden; congruence).
      destruct (@mapM_enum gvar garr (fun iu => let* k := py_div nu density in col_diffuse (snd iu) k) (fun i w => prep g (goff (garray (nth i v dgv))) (D i) w) v dgv) as (ld & Ed & HLd & Hld).
      { intros i Hi. cbn [snd]. unfold py_div. destruct (Req_EM_T density 0) as [X|_]; [contradiction|]. cbn [bind].
        assert (Hi' : (i < gndim g)%nat) by lia. destruct (periodic_vec_nth Hv Hi') as (Hp & Hg). destruct (@collocated_diffuse_spec_lem (nth i v dgv) (nu / density)%R) as (_ & X).
        destruct (X Hp) as (w & Ew & Pw & _); [rewrite Hg; exact Hd|]. exists w. split; [exact Ew|]. rewrite Hg in Pw. eapply prep_ext; [|exact Pw].
        intros ix _. unfold D. unfold centred_laplacian, centred_div, centred_difference. cbv beta.
        f_equal. apply nsum_ext. intros a Ha. rewrite !vval_nth by lia. reflexivity. }
      rewrite (mapM_enum_snd (fun u => let* k := py_div nu density in col_diffuse u k) v) in Ed. rewrite Ed. cbn [bind]. exists [ld]. split; [reflexivity|]. split; [cbn; lia|].
      split; [|discriminate]. intros l [<- | []]. apply fields_at_intro; [exact HLd|]. intros i Hi. apply Hld. exact Hi.
    - exists []. split; [reflexivity|]. split; [cbn; lia|]. split; [intros l []|]. intros _ i ix. reflexivity. }
  destruct S1 as (ld & Ed & HLd & Hld & Hld0). rewrite Ed. cbn [bind].
  assert (S2 : exists lf, match forcing with None => Ok [] | Some f => let* fv := f v in let* fd := mapM (fun a => ga_div_scalar a density) fv in Ok [fd] end = Ok lf /\
     (length lf <= 1)%nat /\ (forall l, In l lf -> fields_at g v l Ff) /\ (lf = [] -> forall i ix, Ff i ix = 0%R)).
  { destruct forcing as [f|].
    - destruct (HF' f eq_refl) as (lf & Ef & Hf). rewrite Ef. cbn [bind].
      destruct (@mapM_enum garr garr (fun iu => ga_div_scalar (snd iu) density) (fun i w => prep g (goff (garray (nth i v dgv))) (fun ix => Fo i ix / density)%R w) lf dga) as (fd & E & HLf & Hfd).
      { intros i Hi. cbn [snd]. apply prep_scalar_r. apply (fields_at_nth Hf). destruct Hf as (Hf & _). lia. }
      rewrite (mapM_enum_snd (fun a => ga_div_scalar a density) lf) in E. rewrite E. cbn [bind]. exists [fd]. split; [reflexivity|]. split; [cbn; lia|].
      split; [|discriminate]. intros l [<- | []]. destruct Hf as (Hf & _). apply fields_at_intro; [lia|]. intros i Hi. apply Hfd. lia.
    - exists []. split; [reflexivity|]. split; [cbn; lia|]. split; [intros l []|]. intros _ i ix. reflexivity. }
  destruct S2 as (lf & Ef & HLf & Hlf & Hlf0). rewrite Ef. cbn [bind].
  set (T := fun i ix => (C i ix + D i ix + Ff i ix)%R).
  assert (S3 : exists dvdt, sum_fields ([lc] ++ ld ++ lf) = Ok dvdt /\ fields_at g v dvdt T).
  { destruct ld as [|ld1 [|? ?]]; [| |cbn in HLd; lia]; (destruct lf as [|lf1 [|? ?]]; [| |cbn in HLf; lia]); cbn [app].
    - destruct (@sum_fields_pointwise_lem g v [lc] (fun _ => C)) as (l & El & (A & B)); [cbn; lia | intros [|k] l E'; cbn in E'; [injection E' as <-; exact Hc | destruct k; discriminate]|].
      exists l. split; [exact El|]. split; [exact A|]. intros i u w Hu Hwi. eapply prep_ext; [|exact (B i u w Hu Hwi)]. intros ix _. unfold T. rewrite Hld0, Hlf0 by reflexivity. unfold nsum; cbn; ring.
    - destruct (@sum_fields_pointwise_lem g v [lc; lf1] (fun k => match k with O => C | _ => Ff end)) as (l & El & (A & B)).
      { cbn; lia. } { intros [|[|k]] l E'; cbn in E'; [injection E' as <-; exact Hc | injection E' as <-; apply Hlf; left; reflexivity | destruct k; discriminate]. }
      exists l. split; [exact El|]. split; [exact A|]. intros i u w Hu Hwi. eapply prep_ext; [|exact (B i u w Hu Hwi)]. intros ix _. unfold T. rewrite Hld0 by reflexivity. unfold nsum; cbn; ring.
    - destruct (@sum_fields_pointwise_lem g v [lc; ld1] (fun k => match k with O => C | _ => D end)) as (l & El & (A & B)).
      { cbn; lia. } { intros [|[|k]] l E'; cbn in E'; [injection E' as <-; exact Hc | injection E' as <-; apply Hld; left; reflexivity | destruct k; discriminate]. }
      exists l. split; [exact El|]. split; [exact A|]. intros i u w Hu Hwi. eapply prep_ext; [|exact (B i u w Hu Hwi)]. intros ix _. unfold T. rewrite Hlf0 by reflexivity. unfold nsum; cbn; ring.
    - destruct (@sum_fields_pointwise_lem g v [lc; ld1; lf1] (fun k => match k with O => C | S O => D | _ => Ff end)) as (l & El & (A & B)).
      { cbn; lia. } { intros [|[|[|k]]] l E'; cbn in E'; [injection E' as <-; exact Hc | injection E' as <-; apply Hld; left; reflexivity | injection E' as <-; apply Hlf; left; reflexivity | destruct k; discriminate]. }
      exists l. split; [exact El|]. split; [exact A|]. intros i u w Hu Hwi. eapply prep_ext; [|exact (B i u w Hu Hwi)]. intros ix _. unfold T. unfold nsum; cbn; ring. }
  destruct S3 as (dvdt & Es & Hdv). rewrite Es. cbn [bind].
  destruct (@mapM_combine gvar garr gvar (fun ud => let* t := array_ufunc (raw2 Rmult) [OGA (snd ud); OScalar dt] in let* s := ga_add (garray (fst ud)) t in mk_gvar s (gbc (fst ud)))
    (fun i w => gbc w = gbc (nth i v dgv) /\ prep g (goff (garray (nth i v dgv))) (fun ix => vval v i ix + dt * T i ix)%R (garray w)) v dvdt dgv dga) as (star & E & HLs & Hs).
  { symmetry. apply Hdv. }
  { intros i Hi. cbn [fst snd]. assert (Hi' : (i < gndim g)%nat) by lia. destruct (prep_scalar_r Rmult dt (fields_at_nth Hdv Hi)) as (t & Et & Ht). rewrite Et. cbn [bind].
    destruct (prep_op2 Rplus (proj1 (periodic_vec_pvar Hv Hi')) Ht) as (s & Es' & Hs'). unfold ga_add. rewrite Es'. cbn [bind].
    unfold mk_gvar. rewrite (proj1 Hs'). destruct (periodic_vec_nth Hv Hi') as ((_ & Hb) & Hg). rewrite Hb, Hg, repeat_length, Nat.eqb_refl.
    eexists; split; [reflexivity|]. cbn [gbc garray]. split; [reflexivity|]. eapply prep_ext; [|exact Hs']. intros ix _. cbv beta. ring. }
  rewrite E. cbn [bind].
  assert (Hst : forall i, (i < gndim g)%nat -> gbc (nth i star dgv) = gbc (nth i v dgv) /\ prep g o (fun ix => vval v i ix + dt * T i ix)%R (garray (nth i star dgv))).
  { intros i Hi. destruct (Hs i dgv ltac:(lia)) as (A & B). split; [exact A|]. eapply prep_off; [|exact B]. pose proof (col_prep Hv Hcol Hi) as ((_ & X & _) & _). exact X. }
  destruct (@cv_intro g o v star _ Hd Ho Hv Hh ltac:(lia) Hst) as (St1 & St2 & St3 & St4).
  destruct (Hsolve star St1 St3) as (q & Hq & Q1 & Q2 & Q3 & Q4).
  destruct (@collocated_projection_lem g o star solve q Hd Ho St1 St3 Hq Q1 Q2 Q3 Q4) as (v' & d & Ep & V1 & V2 & V3 & V4 & V5 & V6 & _).
  exists v', d. split; [exact Ep|]. split.
  { split; [exact V1|]. split; [|split; [exact V2 | congruence]]. unfold homogeneous_vec. apply Forall_forall. intros x Hx. apply (In_nth _ _ dgv) in Hx. destruct Hx as (i & Hi & <-).
    assert (X : gbc (nth i v' dgv) = gbc (nth i star dgv)) by (rewrite <- !(map_nth gbc), V3; reflexivity). rewrite X. destruct V1 as (L1 & _). rewrite L1 in Hi. apply (col_hom St1 St2 Hi). }
  split; [exact V5|]. split; [exact V6|]. intros i Hi.
  assert (Qper : periodic (gshape g) (pval q)) by (destruct Q1 as (_ & S & _); rewrite <- Q2, <- S; apply periodic_pval).
  assert (M : forall w, periodic_vec g w -> momentum w i = asum (gshape g) (vval w i)).
  { intros w Hw'. rewrite momentum_nth by (rewrite (proj1 Hw'); exact Hi). apply (total_is (proj1 (periodic_vec_pvar Hw' Hi))). }
  rewrite (M v' V1), (M v Hv).
  rewrite (@asum_ext _ _ (fun ix => vval star i ix - cdF g i (pval q) ix)%R) by (intros ix Hix; apply V4; auto).
  rewrite asum_minus, (@sum_cdF g i (pval q)) by (auto; apply Hw).
  rewrite (@asum_ext _ (vval star i) (fun ix => vval v i ix + dt * T i ix)%R).
  2:{ intros ix Hix. destruct (Hst i Hi) as (_ & (_ & _ & _ & V)). rewrite <- V by exact Hix. destruct (periodic_vec_pvar St1 Hi) as ((_ & _ & _ & V') & _). symmetry. apply V'. exact Hix. }
  rewrite asum_plus, asum_scal. unfold T. rewrite !asum_plus, Sc by exact Hi.
  assert (SD : asum (gshape g) (D i) = 0%R).
  { unfold D. destruct viscosity as [nu|]; [|apply asum_0]. rewrite asum_scal. unfold centred_laplacian.
    rewrite (@asum_ext _ _ (cdivF g (fun a => cdF g a (vval v i)))) by reflexivity. rewrite sum_cdivF; [ring | apply Hw|]. intros a Ha. apply periodic_cdF. apply (periodic_vval Hv Hi). }
  rewrite SD. assert (SF : asum (gshape g) (Ff i) = match forcing with Some f => match f v with Ok lf => total (gdata (nth i lf dga)) / density | Err _ => 0 end | None => 0 end%R).
  { unfold Ff. destruct forcing as [f|]; [|apply asum_0]. destruct (HF' f eq_refl) as (lf' & Ef' & Hf'). rewrite Ef'. assert (Hi' : (i < length v)%nat) by lia. rewrite (total_is (fields_at_nth Hf' Hi')). unfold Rdiv. apply asum_scal_r. }
  rewrite SF. destruct forcing as [f|]; [|ring]. destruct (HF' f eq_refl) as (lf' & Ef' & Hf'). rewrite Ef'. unfold component_total. rewrite (nth_error_nth' lf' dga) by (destruct Hf' as (L & _); lia). ring.
Qed.

(** ** what can go wrong *)
(* @prop C50 If the pressure solver returns a field at other points than the velocity's, collocated projection raises InconsistentOffsetError instead of mixing points (every periodic collocated velocity, any dimension). *)
Lemma collocated_projection_misplaced_lem : forall g o v solve q, (0 < gndim g)%nat -> length o = gndim g -> periodic_vec g v -> collocated o v ->
  (forall q0, periodic_field q0 -> ggrid (garray q0) = g -> solve v q0 = Ok q) -> wf_garr q -> ggrid q = g -> ~ off_eq (goff q) o ->
  col_projection solve v = Err EOffset.
Proof.
  intros g o v solve q Hd Ho Hv Hcol Hs Hq Hgq Hoq. pose proof (periodic_vec_wfg Hd Hv) as Hw. pose proof Hv as (HLv & _).
  unfold col_projection. rewrite (@pvec_consistent g (fun _ => o) (vval v) v Hd). 2:{ split; [exact HLv|]. intros i Hi. apply (col_prep Hv Hcol Hi). }
  cbn [bind]. destruct (pressure_bc_periodic Hd Hv) as (b & Eb & Hb). rewrite Eb. cbn [bind].
  rewrite (@mk_gvar_ok g (mkga (afull (gshape g) 0%R) (cell_center g) g) b eq_refl Hb). cbn [bind].
  assert (Hq0 : periodic_field (mkgv (mkga (afull (gshape g) 0%R) (cell_center g) g) b)).
  { split; [split; [exact Hw | split; [reflexivity | apply cell_center_length]] | exact Hb]. }
  rewrite (Hs (mkgv (mkga (afull (gshape g) 0%R) (cell_center g) g) b) Hq0 eq_refl). cbn [bind].
  rewrite (@mk_gvar_ok g _ _ Hgq Hb). cbn [bind].
  assert (Hqo : length (goff q) = gndim g) by (destruct Hq as (_ & _ & X); rewrite Hgq in X; exact X).
  assert (Hqv : pvar g (goff q) (pval q) (mkgv q b)).
  { split; [|exact Hb]. cbn [garray]. split; [exact Hgq|]. split; [apply off_eq_refl|]. destruct Hq as (_ & S & _). split; [congruence|]. intros ix Hix. unfold pval. rewrite S, Hgq, wrap_inb by exact Hix. reflexivity. }
  assert (Hqper : periodic (gshape g) (pval q)) by (destruct Hq as (_ & S & _); rewrite <- Hgq, <- S; apply periodic_pval).
  destruct (@col_gradient_prep g (goff q) Hqo (pval q) (mkgv q b) Hw Hqper Hqv) as (gs & Eg & HLg & Hg). rewrite Eg. cbn [bind].
  assert (Herr : forall i, (i < gndim g)%nat -> (let* d := ga_sub (garray (nth i v dgv)) (nth i gs dga) in mk_gvar d (gbc (nth i v dgv))) = Err EOffset).
  { intros i Hi. destruct (col_prep Hv Hcol Hi) as ((A1 & A2 & A3 & _) & _). destruct (Hg i dga Hi) as (B1 & B2 & B3 & _).
    assert (X : ga_sub (garray (nth i v dgv)) (nth i gs dga) = Err EOffset); [|rewrite X; reflexivity]. unfold ga_sub.
    assert (Hd2 : exists d, raw2 Rminus (map raw [OGA (garray (nth i v dgv)); OGA (nth i gs dga)]) = Ok d).
    { cbn [map raw]. unfold raw2. cbn [raw2]. rewrite A3, B3. rewrite shape_eqb_refl. eexists; reflexivity. }
    destruct Hd2 as (d & Ed2). apply (@ufunc_mismatch_lem (raw2 Rminus) [OGA (garray (nth i v dgv)); OGA (nth i gs dga)] d (garray (nth i v dgv)) (nth i gs dga)); auto.
    - intros x [H|[H|[]]]; discriminate.
    - left; reflexivity.
    - right; left; reflexivity.
    - intros H. apply Hoq. eapply off_eq_trans; [apply off_eq_sym; exact B2|]. eapply off_eq_trans; [apply off_eq_sym; exact H | exact A2]. }
  assert (Hc : combine v gs = (nth 0 v dgv, nth 0 gs dga) :: combine (tl v) (tl gs)).
  { destruct v; [simpl in HLv; lia|]. destruct gs; [simpl in HLg; lia|]. reflexivity. }
  rewrite Hc. cbn [mapM fst snd]. rewrite (Herr 0%nat Hd). reflexivity.
Qed.

Definition chequer (ix : list Z) : R := if Z.even (fold_right Z.add 0 ix) then 1%R else (-1)%R.
Lemma even_wrap s : forall ix, length ix = length s -> (forall n, In n s -> Nat.even n = true) -> allpos s ->
  Z.even (fold_right Z.add 0 (wrap s ix)) = Z.even (fold_right Z.add 0 ix).
Proof.
  induction s as [|n s IH]; intros [|i ix] HL He Hp; cbn [length] in HL; try discriminate; [reflexivity|].
  injection HL as HL. inversion Hp as [|? ? Hn Hp']; subst. cbn [wrap fold_right]. rewrite !Z.even_add, (IH ix HL); [|intros m Hm; apply He; right; exact Hm | exact Hp'].
  f_equal. assert (E : Nat.even n = true) by (apply He; left; reflexivity). apply Nat.even_spec in E. destruct E as (m & ->).
  rewrite (Z.div_mod i (Z.of_nat (2 * m))) at 2 by lia. rewrite Z.even_add, Z.even_mul. replace (Z.even (Z.of_nat (2 * m))) with true by (symmetry; rewrite Nat2Z.inj_mul, Z.even_mul; reflexivity). cbn [orb]. destruct (Z.even (i mod Z.of_nat (2 * m))); reflexivity.
Qed.
Lemma sum_shiftix a d : forall ix, (a < length ix)%nat -> fold_right Z.add 0 (shiftix a d ix) = fold_right Z.add 0 ix + d.
Proof.
  unfold shiftix. induction a as [|a IH]; intros [|i ix] H; cbn [length] in H; try lia; cbn [upd nth fold_right].
  - lia.
  - specialize (IH ix ltac:(lia)). lia.
Qed.
Lemma chequer_cd c a ix : wf_garr c -> allpos (gshape (ggrid c)) -> (forall n, In n (gshape (ggrid c)) -> Nat.even n = true) ->
  (forall jx, inb (gshape (ggrid c)) jx -> get (gdata c) jx = chequer jx) -> (a < gndim (ggrid c))%nat -> length ix = gndim (ggrid c) ->
  centred_difference (ggrid c) a (pval c) ix = 0%R.
Proof.
  intros (_ & S & _) Hp He Hc Ha HL. unfold centred_difference, pval. rewrite S.
  assert (X : get (gdata c) (wrap (gshape (ggrid c)) (next a ix)) = get (gdata c) (wrap (gshape (ggrid c)) (prev a ix))).
  { unfold next, prev. assert (L1 : forall d, length (shiftix a d ix) = length (gshape (ggrid c))) by (intros; rewrite shiftix_length; exact HL).
    rewrite !Hc by (apply inb_wrap; auto). unfold chequer. rewrite !even_wrap by auto. rewrite !sum_shiftix by (rewrite HL; exact Ha). rewrite !Z.even_add. reflexivity. }
  rewrite X. unfold Rdiv. ring.
Qed.

(* @prop C50 The collocated operators cannot see the chequerboard: on every periodic grid whose sizes are all even, diffusion of the field (-1)^(i+j+...) is zero everywhere for any viscosity, so diffusion never damps it (stated limitation of the centred stencil). *)
Lemma collocated_chequerboard_invisible_lem : forall c nu, periodic_field c -> (0 < gndim (ggrid (garray c)))%nat ->
  (forall n, In n (gshape (ggrid (garray c))) -> Nat.even n = true) ->
  (forall ix, inb (gshape (ggrid (garray c))) ix -> get (gdata (garray c)) ix = if Z.even (fold_right Z.add 0 ix) then 1%R else (-1)%R) ->
  exists w, col_diffuse c nu = Ok w /\ is_field w (ggrid (garray c)) (goff (garray c)) (fun _ => 0%R).
Proof.
  intros c nu Hc Hd He Hv. destruct (@collocated_diffuse_spec_lem c nu) as (_ & X). destruct (X Hc Hd) as (w & Ew & Pw & _). exists w. split; [exact Ew|].
  eapply prep_ext; [|exact Pw]. intros ix Hix. cbv beta. unfold centred_laplacian, centred_div.
  rewrite nsum_zero; [ring|]. intros a Ha. unfold centred_difference at 1. unfold next, prev.
  rewrite !(@chequer_cd (garray c) a) by (try (rewrite shiftix_length; exact (inb_length _ _ Hix)); auto; try apply Hc; apply (pf_wfg Hc)). unfold Rdiv. ring.
Qed.

(** ** examples *)
(* @ex *)
Lemma collocated_step_ex_lem :
  (0 < gndim c3g)%nat /\ length c3o = gndim c3g /\ collocated_velocity c3g c3o [periodic_bc 1] c3v /\ (Some 3%R <> None -> 2 <> 0)%R /\ solves_centred_poisson c3g c3o c3_solve /\
  momentum c3v 0 = 8%R.
Proof.
  split; [cbn; lia|]. split; [reflexivity|]. split; [exact c3_pv|]. split; [intros _; lra|]. split; [exact c3_solves|].
  unfold momentum, c3v. cbn [nth_error]. unfold total. cbn. lra.
Qed.
(* @ex *)
Lemma collocated_projection_misplaced_ex_lem : let q := mkga (afull [3%nat] 1%R) [0%Q] c3g in
  (0 < gndim c3g)%nat /\ length c3o = gndim c3g /\ periodic_vec c3g c3v /\ collocated c3o c3v /\ wf_garr q /\ ggrid q = c3g /\ ~ off_eq (goff q) c3o.
Proof.
  cbv zeta. split; [cbn; lia|]. split; [reflexivity|]. split; [apply c3_pv|]. split; [apply c3_pv|]. split; [split; [exact c3_wfg | split; reflexivity]|]. split; [reflexivity|].
  intros H. inversion H as [|? ? ? ? H1 _]; subst. discriminate H1.
Qed.
(* @ex *)
Lemma collocated_chequerboard_invisible_ex_lem : let c := mkgv (mkga (mkarr [2%nat; 4%nat] (fun ix => if Z.even (fold_right Z.add 0 ix) then 1%R else (-1)%R)) half2 (mkgrid [2%nat; 4%nat] [1%R; 1%R] [(0%R, 2%R); (0%R, 4%R)])) (periodic_bc 2) in
  periodic_field c /\ (0 < gndim (ggrid (garray c)))%nat /\ (forall n, In n (gshape (ggrid (garray c))) -> Nat.even n = true) /\
  get (gdata (garray c)) [0; 1] <> get (gdata (garray c)) [0; 0].
Proof.
  cbv zeta. split; [repeat split; repeat constructor; (lia || lra)|]. split; [cbn; lia|]. split; [intros n [<- | [<- | []]]; reflexivity|]. cbn. lra.
Qed.
