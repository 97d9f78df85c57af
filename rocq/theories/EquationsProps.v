(** * C49: the equations built from the operators *)
From Verif Require Import Prelude NdArr Grids_model Spec SpecLin SpecDiag SpecDiff LinAlg Cplx Boundaries_model BoundariesPeriodic FD_model LaplacianProps PRep FDProofs FDProps WallBC WallBCProps ImposeProps WallFD Pressure_model PressureProps WallFDProps ProjectionProps Interp_model InterpProofs InterpProps UpwindProps TvdProps Advection_model AdvectionProofs AdvectionProps FastDiag_model Laplacian_model PressureSolve_model PressureSolveProps Diffusion_model DiffusionProps TimeStep_model Equations_model SpecNS.
Set Implicit Arguments.
Local Open Scope Z_scope.

Lemma mapM_enum_snd {A B} (f : A -> result B) (l : list A) : mapM (fun iu => f (snd iu)) (enumerate l) = mapM f l.
Proof.
  unfold enumerate. generalize 0%nat. induction l as [|x l IH]; intros s; [reflexivity|]. cbn [length seq combine mapM snd]. rewrite (IH (S s)). reflexivity.
Qed.

(** ** trees *)
Lemma same_tree_prep g o F G a b : prep g o F a -> prep g o G b -> same_tree a b = true.
Proof.
  intros (A1 & A2 & _) (B1 & B2 & _). unfold same_tree. rewrite A1, B1, grid_eqb_refl, andb_true_r.
  apply off_eqb_iff. eapply off_eq_trans; [exact A2 | apply off_eq_sym; exact B2].
Qed.
Lemma same_trees_nth l : forall l', length l = length l' ->
  (forall i, (i < length l)%nat -> same_tree (nth i l dga) (nth i l' dga) = true) -> same_trees l l' = true.
Proof.
  induction l as [|a l IH]; intros [|b l'] HL H; simpl in HL; try lia; [reflexivity|].
  cbn [same_trees]. pose proof (H 0%nat ltac:(simpl; lia)) as H0. cbn [nth] in H0. rewrite H0. cbn [andb]. apply IH; [lia|]. intros i Hi. apply (H (S i)). simpl; lia.
Qed.
Lemma tree_add2_prep g o F G a b : prep g o F a -> prep g o G b ->
  exists w, tree_add2 a b = Ok w /\ prep g o (fun ix => F ix + G ix)%R w.
Proof.
  intros (A1 & A2 & A3 & A4) (B1 & B2 & B3 & B4). unfold tree_add2, raw2. rewrite A3, B3, shape_eqb_refl. cbn [bind].
  eexists; split; [reflexivity|]. split; [exact A1|]. split; [exact A2|]. split; [exact A3|].
  intros ix Hix. cbn [gdata amap2 get]. rewrite A4, B4 by auto. reflexivity.
Qed.
Lemma tree_add_prep g n (os : nat -> list Q) F G l l' : length l = n -> length l' = n ->
  (forall i, (i < n)%nat -> prep g (os i) (F i) (nth i l dga)) -> (forall i, (i < n)%nat -> prep g (os i) (G i) (nth i l' dga)) ->
  exists w, tree_add l l' = Ok w /\ length w = n /\ forall i, (i < n)%nat -> prep g (os i) (fun ix => F i ix + G i ix)%R (nth i w dga).
Proof.
  intros HL HL' H H'. unfold tree_add. rewrite same_trees_nth; [|lia | intros i Hi; eapply same_tree_prep; [apply H; lia | apply H'; lia]].
  destruct (@mapM_combine garr garr garr (fun ab => tree_add2 (fst ab) (snd ab)) (fun i w => prep g (os i) (fun ix => F i ix + G i ix)%R w) l l' dga dga)
    as (w & E & HLw & Hw); [lia | intros i Hi; apply tree_add2_prep; [apply H; lia | apply H'; lia]|].
  exists w. split; [exact E|]. split; [lia|]. intros i Hi. apply Hw. lia.
Qed.
Lemma tree_div_length l c : length (tree_div l c) = length l.
Proof. apply map_length. Qed.
Lemma tree_div_prep g o F l c i : (i < length l)%nat -> prep g o F (nth i l dga) -> prep g o (fun ix => F ix / c)%R (nth i (tree_div l c) dga).
Proof.
  intros Hi (A1 & A2 & A3 & A4). unfold tree_div. rewrite (nth_map' _ _ dga dga) by auto.
  split; [exact A1|]. split; [exact A2|]. split; [exact A3|]. intros ix Hix. cbn [gdata amap get]. rewrite A4 by auto. reflexivity.
Qed.
Lemma fields_at_nth g v l F i : fields_at g v l F -> (i < length v)%nat -> prep g (goff (garray (nth i v dgv))) (F i) (nth i l dga).
Proof. intros (HL & H) Hi. apply H; apply nth_error_nth'; lia. Qed.
Lemma fields_at_intro g v l F : length l = length v -> (forall i, (i < length v)%nat -> prep g (goff (garray (nth i v dgv))) (F i) (nth i l dga)) -> fields_at g v l F.
Proof.
  intros HL H. split; [exact HL|]. intros i u w Hu Hw. assert (Hi : (i < length v)%nat) by (apply nth_error_Some; congruence).
  specialize (H i Hi). rewrite (nth_error_nth _ _ _ Hu), (nth_error_nth _ _ _ Hw) in H. exact H.
Qed.

(** ** explicit terms *)
Definition opt_term {A} (o : option A) (x : R) : R := match o with Some _ => x | None => 0%R end.

Lemma explicit_prep g density viscosity convect diffuse forcing v lc C D Fo :
  (forall i, (i < length v)%nat -> length (btypes (gbc (nth i v dgv))) = gndim g) ->
  (viscosity <> None -> density <> 0%R) ->
  convect v = Ok lc -> fields_at g v lc C ->
  (forall nu i, viscosity = Some nu -> (i < length v)%nat -> exists w, diffuse (nth i v dgv) (nu / density)%R = Ok w /\ prep g (goff (garray (nth i v dgv))) (D i) w) ->
  (forall f, forcing = Some f -> exists lf, f v = Ok lf /\ fields_at g v lf Fo) ->
  exists l, navier_stokes_explicit_terms density viscosity convect diffuse forcing v = Ok l /\ length l = length v /\
    forall i, (i < length v)%nat -> gbc (nth i l dgv) = gbc (nth i v dgv) /\
      prep g (goff (garray (nth i v dgv))) (fun ix => C i ix + opt_term viscosity (D i ix) + opt_term forcing (Fo i ix / density))%R (garray (nth i l dgv)).
Proof.
  intros Hb Hden Ec Hc HD HF. unfold navier_stokes_explicit_terms. rewrite Ec. cbn [bind].
  set (n := length v). set (os := fun i => goff (garray (nth i v dgv))). pose proof Hc as (HLc & _).
  assert (S1 : exists l1, match viscosity with None => Ok lc | Some nu => let* c := py_div nu density in let* d := mapM (fun u => diffuse u c) v in tree_add lc d end = Ok l1 /\
     length l1 = n /\ forall i, (i < n)%nat -> prep g (os i) (fun ix => C i ix + opt_term viscosity (D i ix))%R (nth i l1 dga)).
  { destruct viscosity as [nu|].
    - unfold py_div. destruct (Req_EM_T density 0) as [E|_]; [exfalso; apply Hden; congruence|]. cbn [bind].
      destruct (@mapM_enum gvar garr (fun iu => diffuse (snd iu) (nu / density)%R) (fun i w => prep g (os i) (D i) w) v dgv) as (ld & Ed & HLd & Hd).
      { intros i Hi. apply (HD nu i); auto. }
      assert (Em : mapM (fun u => diffuse u (nu / density)%R) v = Ok ld).
      { rewrite <- Ed. symmetry. apply (mapM_enum_snd (fun u => diffuse u (nu / density)%R)). }
      rewrite Em. cbn [bind].
      apply (@tree_add_prep g n os C D lc ld HLc HLd); [intros i Hi; apply (fields_at_nth Hc Hi) | intros i Hi; apply Hd; exact Hi].
    - exists lc. split; [reflexivity|]. split; [exact HLc|]. intros i Hi. eapply prep_ext; [|apply (fields_at_nth Hc Hi)]. intros ix _. cbn. ring. }
  destruct S1 as (l1 & E1 & HL1 & H1). rewrite E1. cbn [bind].
  assert (S2 : exists l2, match forcing with None => Ok l1 | Some f => let* fv := f v in tree_add l1 (tree_div fv density) end = Ok l2 /\
     length l2 = n /\ forall i, (i < n)%nat -> prep g (os i) (fun ix => C i ix + opt_term viscosity (D i ix) + opt_term forcing (Fo i ix / density))%R (nth i l2 dga)).
  { destruct forcing as [f|].
    - destruct (HF f eq_refl) as (lf & Ef & Hf). rewrite Ef. cbn [bind]. pose proof Hf as (HLf & _).
      apply (@tree_add_prep g n os _ _ l1 (tree_div lf density) HL1); [rewrite tree_div_length; exact HLf | exact H1|].
      intros i Hi. apply tree_div_prep; [unfold n in Hi; lia|]. apply (fields_at_nth Hf Hi).
    - exists l1. split; [reflexivity|]. split; [exact HL1|]. intros i Hi. eapply prep_ext; [|apply H1; exact Hi]. intros ix _. cbn. ring. }
  destruct S2 as (l2 & E2 & HL2 & H2). rewrite E2. cbn [bind].
  destruct (@mapM_combine garr gvar gvar (fun au => mk_gvar (fst au) (gbc (snd au)))
    (fun i w => w = mkgv (nth i l2 dga) (gbc (nth i v dgv))) l2 v dga dgv) as (l & E & HL & Hl); [exact HL2 | |].
  { intros i Hi. rewrite HL2 in Hi. cbn [fst snd]. unfold mk_gvar. destruct (H2 i Hi) as (Gi & _). rewrite Gi, (Hb i Hi), Nat.eqb_refl. eexists; split; reflexivity. }
  exists l. split; [exact E|]. split; [unfold n in HL2; lia|]. intros i Hi. rewrite (Hl i dgv) by lia. split; [reflexivity|]. apply H2. exact Hi.
Qed.

(* @prop C49 The explicit terms of Navier-Stokes are, for each component and at its offset, convection + (if a viscosity is given) diffusion with coefficient viscosity/density + (if there is a forcing) force/density, with the component's boundary conditions, for any convection, diffusion and forcing functions that return one field per component. *)
Lemma explicit_terms_combination_lem : forall g density viscosity convect diffuse forcing v lc C D Fo,
  (forall u, In u v -> length (btypes (gbc u)) = gndim g) ->
  (viscosity <> None -> density <> 0%R) ->
  convect v = Ok lc -> fields_at g v lc C ->
  (forall nu i u, viscosity = Some nu -> nth_error v i = Some u -> exists w, diffuse u (nu / density)%R = Ok w /\ is_field w g (goff (garray u)) (D i)) ->
  (forall f, forcing = Some f -> exists lf, f v = Ok lf /\ fields_at g v lf Fo) ->
  exists l, navier_stokes_explicit_terms density viscosity convect diffuse forcing v = Ok l /\ map gbc l = map gbc v /\
    fields_at g v (map garray l) (fun i ix =>
      C i ix + match viscosity with Some _ => D i ix | None => 0 end + match forcing with Some _ => Fo i ix / density | None => 0 end)%R.
Proof.
  intros g density viscosity convect diffuse forcing v lc C D Fo Hb Hden Ec Hc HD HF.
  destruct (@explicit_prep g density viscosity convect diffuse forcing v lc C D Fo) as (l & E & HL & H); auto.
  { intros i Hi. apply Hb. apply nth_In; auto. }
  { intros nu i En Hi. apply (HD nu i); auto. apply nth_error_nth'; auto. }
  exists l. split; [exact E|]. split.
  - apply (list_ext_nth (gbc dgv)); rewrite !map_length; auto. intros k Hk. rewrite !map_nth. apply H. lia.
  - apply fields_at_intro; [rewrite map_length; auto|]. intros i Hi. change dga with (garray dgv). rewrite map_nth. apply H; auto.
Qed.

(** ** velocities *)
Section Vel.
Variables (g : grid) (o : list Q) (bs : list bcs).
Hypothesis (Hd : (0 < gndim g)%nat) (Ho : length o = gndim g).
Let n := gndim g.
Local Notation PV := (periodic_velocity g o bs).

Lemma pv_len v : PV v -> length v = n.
Proof. intros (Hv & _). apply Hv. Qed.
Lemma pv_wfg v : PV v -> wfg g.
Proof. intros (Hv & _). apply (periodic_vec_wfg Hd Hv). Qed.
Lemma pv_off v i : PV v -> (i < n)%nat -> off_eq (goff (garray (nth i v dgv))) (offs i (1 # 2) o).
Proof. intros Hv Hi. pose proof (pv_len Hv). destruct Hv as (_ & _ & Hf & _). apply Hf. apply nth_error_nth'. lia. Qed.
Lemma pv_bc v i : PV v -> (i < n)%nat -> gbc (nth i v dgv) = nth i bs (gbc dgv).
Proof. intros Hv Hi. destruct Hv as (_ & _ & _ & <-). rewrite map_nth. reflexivity. Qed.
Lemma pv_prep v i : PV v -> (i < n)%nat -> prep g (offs i (1 # 2) o) (vval v i) (garray (nth i v dgv)).
Proof. intros Hv Hi. eapply prep_off; [exact (pv_off Hv Hi)|]. destruct Hv as (Hv & _). exact (proj1 (periodic_vec_pvar Hv Hi)). Qed.
Lemma pv_btypes v i : PV v -> (i < n)%nat -> btypes (nth i bs (gbc dgv)) = repeat (Periodic, Periodic) n /\ bhom (nth i bs (gbc dgv)) = true.
Proof.
  intros Hv Hi. rewrite <- (pv_bc Hv Hi). pose proof (pv_len Hv) as HL. destruct Hv as (Hv & Hh & _). split.
  - destruct (periodic_vec_nth Hv Hi) as ((_ & Hb) & Hg). rewrite Hg in Hb. exact Hb.
  - unfold homogeneous_vec in Hh. rewrite Forall_forall in Hh. apply Hh. apply nth_In. lia.
Qed.
(** a list of variables with the structure of a velocity is one *)
Lemma pv_intro v w F : PV v -> length w = n ->
  (forall i, (i < n)%nat -> gbc (nth i w dgv) = nth i bs (gbc dgv) /\ prep g (offs i (1 # 2) o) (F i) (garray (nth i w dgv))) -> PV w.
Proof.
  intros Hv HL H. pose proof (pv_wfg Hv) as Hw.
  assert (Hbs : length bs = n) by (destruct Hv as ((HLv & _) & _ & _ & <-); rewrite map_length; exact HLv).
  split; [|split; [|split]].
  - split; [exact HL|]. apply Forall_forall. intros x Hx. apply (In_nth _ _ dgv) in Hx. destruct Hx as (i & Hi & <-). rewrite HL in Hi.
    destruct (H i Hi) as (B & (G1 & G2 & G3 & _)). split; [|exact G1]. split; [split; [rewrite G1; exact Hw|]; split; [congruence|]|].
    + rewrite (off_eq_length G2), offs_length, G1. exact Ho.
    + rewrite G1, B. apply (pv_btypes Hv Hi).
  - apply Forall_forall. intros x Hx. apply (In_nth _ _ dgv) in Hx. destruct Hx as (i & Hi & <-). rewrite HL in Hi.
    destruct (H i Hi) as (B & _). rewrite B. apply (pv_btypes Hv Hi).
  - intros i u Hu. assert (Hi : (i < n)%nat) by (rewrite <- HL; apply nth_error_Some; congruence).
    destruct (H i Hi) as (_ & (_ & G2 & _)). rewrite (nth_error_nth _ _ _ Hu) in G2. exact G2.
  - apply (list_ext_nth (gbc dgv)); rewrite map_length; [lia|]. intros k Hk. rewrite map_nth. apply H. lia.
Qed.
Lemma momentum_nth v i : (i < length v)%nat -> momentum v i = total (gdata (garray (nth i v dgv))).
Proof. intros Hi. unfold momentum. rewrite (nth_error_nth' v dgv) by auto. reflexivity. Qed.
Lemma momentum_out v i : (length v <= i)%nat -> momentum v i = 0%R.
Proof. intros Hi. unfold momentum. replace (nth_error v i) with (@None gvar); [reflexivity|]. symmetry. apply nth_error_None; auto. Qed.
Lemma total_is F oo u : prep g oo F u -> total (gdata u) = asum (gshape g) F.
Proof. intros (_ & _ & S & V). unfold total. rewrite S. apply asum_ext. exact V. Qed.
Lemma momentum_pv v i : PV v -> (i < n)%nat -> momentum v i = asum (gshape g) (vval v i).
Proof. intros Hv Hi. rewrite momentum_nth by (rewrite (pv_len Hv); auto). eapply total_is. apply (pv_prep Hv Hi). Qed.

Lemma same_vars_pv a b : PV a -> PV b -> same_vars a b = true.
Proof.
  intros Ha Hb.
  assert (Hgen : forall l l', length l = length l' -> (forall i, (i < length l)%nat -> same_var (nth i l dgv) (nth i l' dgv) = true) -> same_vars l l' = true).
  { induction l as [|x l IH]; intros [|y l'] HL H; simpl in HL; try lia; [reflexivity|].
    cbn [same_vars]. pose proof (H 0%nat ltac:(simpl; lia)) as H0. cbn [nth] in H0. rewrite H0. cbn [andb]. apply IH; [lia|]. intros i Hi. apply (H (S i)). simpl; lia. }
  pose proof (pv_len Ha). pose proof (pv_len Hb). apply Hgen; [lia|]. intros i Hi. assert (Hi' : (i < n)%nat) by lia.
  unfold same_var. rewrite (same_tree_prep (pv_prep Ha Hi') (pv_prep Hb Hi')). cbn [andb].
  rewrite (pv_bc Ha Hi'), (pv_bc Hb Hi'). destruct (bcs_eq_dec _ _); congruence.
Qed.
Lemma vel_add_pv a b : PV a -> PV b -> exists c, vel_add a b = Ok c /\ PV c /\ forall i, momentum c i = (momentum a i + momentum b i)%R.
Proof.
  intros Ha Hb. unfold vel_add. rewrite same_vars_pv by auto. pose proof (pv_len Ha) as La. pose proof (pv_len Hb) as Lb.
  destruct (@mapM_combine gvar gvar gvar (fun ab => let* s := tree_add2 (garray (fst ab)) (garray (snd ab)) in Ok (mkgv s (gbc (fst ab))))
    (fun i w => gbc w = nth i bs (gbc dgv) /\ prep g (offs i (1 # 2) o) (fun ix => vval a i ix + vval b i ix)%R (garray w)) a b dgv dgv) as (c & E & HL & Hc); [lia | |].
  { intros i Hi. assert (Hi' : (i < n)%nat) by lia. cbn [fst snd]. destruct (tree_add2_prep (pv_prep Ha Hi') (pv_prep Hb Hi')) as (w & Ew & Hw).
    rewrite Ew. cbn [bind]. eexists; split; [reflexivity|]. split; [apply (pv_bc Ha Hi') | exact Hw]. }
  assert (Hpv : PV c) by (apply (@pv_intro a c (fun i ix => vval a i ix + vval b i ix)%R Ha); [lia|]; intros i Hi; apply Hc; lia).
  exists c. split; [exact E|]. split; [exact Hpv|]. intros i. destruct (Nat.lt_ge_cases i n) as [Hi|Hi].
  - rewrite (momentum_pv Ha Hi), (momentum_pv Hb Hi), momentum_nth by (rewrite (pv_len Hpv); auto).
    destruct (Hc i dgv ltac:(lia)) as (_ & P). rewrite (total_is P). apply asum_plus.
  - rewrite !momentum_out by (rewrite ?(pv_len Hpv); lia). ring.
Qed.
Lemma vel_scal_pv c a : PV a -> PV (vel_scal c a) /\ forall i, momentum (vel_scal c a) i = (c * momentum a i)%R.
Proof.
  intros Ha. pose proof (pv_len Ha) as La.
  assert (HL : length (vel_scal c a) = n) by (unfold vel_scal; rewrite map_length; exact La).
  assert (H : forall i, (i < n)%nat -> gbc (nth i (vel_scal c a) dgv) = nth i bs (gbc dgv) /\
     prep g (offs i (1 # 2) o) (fun ix => c * vval a i ix)%R (garray (nth i (vel_scal c a) dgv))).
  { intros i Hi. unfold vel_scal. rewrite (nth_map' _ _ dgv dgv) by lia. split; [apply (pv_bc Ha Hi)|].
    destruct (pv_prep Ha Hi) as (G1 & G2 & G3 & G4). split; [exact G1|]. split; [exact G2|]. split; [exact G3|].
    intros ix Hix. cbn [garray gdata amap get]. rewrite G4 by auto. reflexivity. }
  split; [exact (pv_intro _ _ Ha HL H)|]. intros i. destruct (Nat.lt_ge_cases i n) as [Hi|Hi].
  - rewrite (momentum_pv Ha Hi), momentum_nth by lia. destruct (H i Hi) as (_ & P). rewrite (total_is P). apply asum_scal.
  - rewrite !momentum_out by lia. ring.
Qed.

(** [mc] is 1 to follow the momentum and 0 to ignore it. *)
Variable mc : R.
Definition zero_sum (k : list gvar) : Prop := PV k /\ forall i, (mc * momentum k i = 0)%R.
Lemma vel_wsum_pv row ks m : (m <= length row)%nat -> (m <= length ks)%nat -> (forall j, (j < m)%nat -> zero_sum (nth j ks [])) ->
  exists s, vel_wsum row ks m = Ok s /\ match s with None => True | Some s => zero_sum s end.
Proof.
  intros Hr Hk H. unfold vel_wsum. induction m as [|m IH].
  - exists None. split; [reflexivity | exact I].
  - destruct IH as (s & E & Hs); [lia | lia | intros j Hj; apply H; lia|]. rewrite seq_S, foldM_app, E. cbn [bind foldM Nat.add].
    rewrite (nth_error_nth' row 0%R) by lia. rewrite (nth_error_nth' ks []) by lia.
    destruct (nz (nth m row 0%R)); [|exists s; split; [reflexivity | exact Hs]].
    destruct (H m ltac:(lia)) as (Hp & Hm). destruct (vel_scal_pv (nth m row 0%R) Hp) as (Hp' & Hm').
    assert (Z : zero_sum (vel_scal (nth m row 0%R) (nth m ks []))) by (split; [exact Hp'|]; intros i; rewrite Hm'; replace (mc * (nth m row 0 * momentum (nth m ks []) i))%R with (nth m row 0 * (mc * momentum (nth m ks []) i))%R by ring; rewrite Hm; ring).
    destruct s as [s|].
    + destruct Hs as (Hsp & Hsm). destruct (vel_add_pv Hsp Hp') as (c & Ec & Hc & Hcm). rewrite Ec. cbn [bind].
      exists (Some c). split; [reflexivity|]. split; [exact Hc|]. intros i. rewrite Hcm. destruct Z as (_ & Z). rewrite Rmult_plus_distr_l, Hsm, Z. ring.
    + cbn [bind]. exists (Some (vel_scal (nth m row 0%R) (nth m ks []))). split; [reflexivity | exact Z].
Qed.
Lemma vel_update_pv u0 dt s : PV u0 -> match s with None => True | Some s => zero_sum s end ->
  exists w, vel_update u0 dt s = Ok w /\ PV w /\ forall i, (mc * momentum w i = mc * momentum u0 i)%R.
Proof.
  intros H0 Hs. destruct s as [s|]; cbn [vel_update].
  - destruct Hs as (Hp & Hm). destruct (vel_scal_pv dt Hp) as (Hp' & Hm'). destruct (vel_add_pv H0 Hp') as (c & Ec & Hc & Hcm).
    exists c. split; [exact Ec|]. split; [exact Hc|]. intros i. rewrite Hcm, Hm'. replace (mc * (momentum u0 i + dt * momentum s i))%R with (mc * momentum u0 i + dt * (mc * momentum s i))%R by ring. rewrite Hm. ring.
  - exists u0. split; [reflexivity|]. split; [exact H0 | reflexivity].
Qed.

Lemma vel_rk_pv t F P dt u0 : explicit_tableau t ->
  (forall v, PV v -> exists k, F v = Ok k /\ zero_sum k) ->
  (forall v, PV v -> exists w, P v = Ok w /\ PV w) -> PV u0 ->
  exists u_star, vel_rk t F P dt u0 = P u_star /\ PV u_star /\ forall i, (mc * momentum u_star i = mc * momentum u0 i)%R.
Proof.
  intros (Hab & Hrow) HF HP H0. unfold vel_rk. destruct (length (tb t)) as [|m] eqn:Hlen; [lia|].
  destruct (HF u0 H0) as (k0 & Ek0 & Hk0). rewrite Ek0. cbn [bind]. replace (S m - 1)%nat with m by lia.
  assert (Hgen : forall j, (j <= m)%nat -> exists ks, foldM (fun ks i => match nth_error (ta t) (i - 1) with
       | None => Err EIndex
       | Some row => let* s := vel_wsum row ks i in let* u_star := vel_update u0 dt s in let* ui := P u_star in let* ki := F ui in Ok (ks ++ [ki]) end) [k0] (seq 1 j) = Ok ks /\
       length ks = S j /\ forall l, (l < S j)%nat -> zero_sum (nth l ks [])).
  { induction j as [|j IH]; intros Hj.
    - exists [k0]. split; [reflexivity|]. split; [reflexivity|]. intros [|l] Hl; [exact Hk0 | lia].
    - destruct IH as (ks & E & HL & Hks); [lia|]. rewrite seq_S, foldM_app, E. cbn [bind foldM]. replace (1 + j - 1)%nat with j by lia.
      assert (Hj' : (j < length (ta t))%nat) by lia. rewrite (nth_error_nth' (ta t) []) by auto.
      pose proof (Hrow j (nth j (ta t) []) (nth_error_nth' _ _ Hj')) as Hlr.
      destruct (@vel_wsum_pv (nth j (ta t) []) ks (1 + j)) as (s & Es & Hs); [lia | lia | intros l Hl; apply Hks; lia|].
      rewrite Es. cbn [bind]. destruct (@vel_update_pv u0 dt s H0 Hs) as (w & Ew & Hw & _). rewrite Ew. cbn [bind].
      destruct (HP w Hw) as (ui & Eui & Hui). rewrite Eui. cbn [bind]. destruct (HF ui Hui) as (ki & Eki & Hki). rewrite Eki. cbn [bind].
      exists (ks ++ [ki]). split; [reflexivity|]. split; [rewrite app_length; simpl; lia|]. intros l Hl.
      destruct (Nat.eq_dec l (S j)) as [->|Hne]; [rewrite app_nth2 by lia; rewrite HL, Nat.sub_diag; exact Hki | rewrite app_nth1 by lia; apply Hks; lia]. }
  destruct (Hgen m (le_n m)) as (ks & E & HL & Hks). rewrite E. cbn [bind].
  destruct (@vel_wsum_pv (tb t) ks (S m)) as (s & Es & Hs); [lia | lia | exact Hks|]. rewrite Es. cbn [bind].
  destruct (@vel_update_pv u0 dt s H0 Hs) as (w & Ew & Hw & Hm). rewrite Ew. cbn [bind]. exists w. split; [reflexivity|]. split; [exact Hw | exact Hm].
Qed.

(** ** projection *)
Lemma projection_const solve v b : wfg g -> periodic_vec g v -> pressure_bc_from_velocity v = Ok b -> perbc g b ->
  exists q0, projection solve v = projection (fun _ _ _ => solve v q0 b) v.
Proof.
  intros Hw Hv Eb Hb.
  destruct (@impose_prep g (cell_center g) (fun _ => 0%R) b (mkga (afull (gshape g) 0%R) (cell_center g) g)) as (q0 & E0 & _); auto.
  { apply cell_center_length. } { repeat split; simpl; auto. apply off_eq_refl. }
  assert (Hcg : consistent_grid (map garray v) = Ok g).
  { destruct Hv as (HL & HF). apply consistent_grid_all; [rewrite map_length; lia|]. intros a Ha. apply in_map_iff in Ha. destruct Ha as (x & <- & Hx).
    rewrite Forall_forall in HF. apply HF; auto. }
  exists (mkgv q0 b). unfold projection. rewrite Hcg. cbn [bind]. rewrite Eb. cbn [bind]. rewrite E0. cbn [bind]. reflexivity.
Qed.
Lemma projection_pv solve v : PV v -> pressure_solver g o solve ->
  exists w, projection solve v = Ok w /\ PV w /\ forall i, momentum w i = momentum v i.
Proof.
  intros Hv Hs. pose proof (pv_wfg Hv) as Hw. pose proof Hv as (Hpv & _ & Hf & _).
  destruct (pressure_bc_periodic Hd Hpv) as (b & Eb & Hb). destruct (projection_const solve Hw Hpv Eb Hb) as (q0 & Ep).
  destruct (Hs v q0 b Hpv Hf Hb Eb) as (q & Eq & Q1 & Q2 & Q3). rewrite Ep.
  destruct (@projection_prep g o v (fun _ _ _ => solve v q0 b) q Hw Hd Hpv Ho Hf) as (w & E & HL & H); auto.
  assert (Hqper : periodic (gshape g) (pval q)) by (destruct Q1 as (_ & S & _); rewrite <- Q2, <- S; apply periodic_pval).
  assert (H' : forall i, (i < n)%nat -> gbc (nth i w dgv) = nth i bs (gbc dgv) /\ prep g (offs i (1 # 2) o) (fun ix => vval v i ix - fdF g i (pval q) ix)%R (garray (nth i w dgv))).
  { intros i Hi. destruct (H i Hi) as (B & P). split; [rewrite B; apply (pv_bc Hv Hi)|]. eapply prep_off; [apply (pv_off Hv Hi) | exact P]. }
  assert (Hpw : PV w) by exact (pv_intro _ _ Hv HL H').
  exists w. split; [exact E|]. split; [exact Hpw|]. intros i. destruct (Nat.lt_ge_cases i n) as [Hi|Hi].
  - rewrite (momentum_pv Hv Hi), momentum_nth by (unfold n in Hi; lia). destruct (H' i Hi) as (_ & P). rewrite (total_is P), asum_minus, sum_fdF by (auto; apply Hw). ring.
  - rewrite !momentum_out by (rewrite ?(pv_len Hv); unfold n in *; lia). reflexivity.
Qed.
Lemma solves_is_solver solve : solves_poisson g o solve -> pressure_solver g o solve.
Proof. intros H v q0 b Hv Hf Hb Eb. destruct (H v q0 b Hv Hf Hb Eb) as (q & _ & _ & E & A & B & C & _). eauto. Qed.
Lemma projection_div solve v : PV v -> solves_poisson g o solve ->
  exists w d, projection solve v = Ok w /\ divergence w = Ok d /\ is_field d g o (fun _ => 0%R).
Proof.
  intros Hv Hs. pose proof (pv_wfg Hv) as Hw. pose proof Hv as (Hpv & _ & Hf & _).
  destruct (pressure_bc_periodic Hd Hpv) as (b & Eb & Hb). destruct (projection_const solve Hw Hpv Eb Hb) as (q0 & Ep).
  destruct (Hs v q0 b Hpv Hf Hb Eb) as (q & dv & lq & Eq & Q1 & Q2 & Q3 & Ed & El & Hae). rewrite Ep.
  destruct (@projection_divergence_free_lem g o v (fun _ _ _ => solve v q0 b) q b dv lq) as (w & d & E & _ & _ & _ & E2 & Z); auto.
  exists w, d. auto.
Qed.
End Vel.

(** ** default convection and diffusion *)
Lemma default_convect_prep g o bs v dt : (0 < gndim g)%nat -> periodic_velocity g o bs v ->
  exists lc C, default_convect dt v = Ok lc /\ fields_at g v lc C /\ forall i, (i < gndim g)%nat -> asum (gshape g) (C i) = 0%R.
Proof.
  intros Hd Hv. pose proof (pv_len Hv) as HL. destruct Hv as (Hv & Hh & _).
  destruct (@mapM_enum gvar garr (fun iu => advect_van_leer_using_limiters (snd iu) v dt)
    (fun i w => prep g (goff (garray (nth i v dgv))) (get (gdata w)) w /\ total (gdata w) = 0%R) v dgv) as (lc & E & HLc & Hc).
  { intros i Hi. cbn [snd]. assert (Hi' : (i < gndim g)%nat) by lia. destruct (periodic_vec_nth Hv Hi') as (Hp & Hg).
    destruct (@advect_limited_flux_form_lem van_leer_limiter (nth i v dgv) v dt Hp) as (w & Ew & (A & B & C & _)); [congruence | rewrite Hg; exact Hv | exact Hh|].
    destruct (@advection_schemes_conserve_lem (nth i v dgv) v dt Hp) as (_ & _ & w' & Ew' & T); [congruence | rewrite Hg; exact Hv | exact Hh|].
    unfold advect_van_leer_using_limiters in Ew' |- *. rewrite Ew in Ew'. injection Ew' as <-. exists w. split; [exact Ew|]. split; [|exact T].
    rewrite Hg in *. repeat split; auto. }
  exists lc, (fun i => get (gdata (nth i lc dga))). split; [|split].
  - unfold default_convect. rewrite <- E. symmetry. apply (mapM_enum_snd (fun u => advect_van_leer_using_limiters u v dt)).
  - apply fields_at_intro; [exact HLc|]. intros i Hi. apply (Hc i dga Hi).
  - intros i Hi. destruct (Hc i dga ltac:(lia)) as (P & T). rewrite (total_is P) in T. exact T.
Qed.
Lemma diffuse_prep g o bs v nu i : periodic_velocity g o bs v -> (i < gndim g)%nat ->
  exists w, diffuse (nth i v dgv) nu = Ok w /\ prep g (goff (garray (nth i v dgv))) (fun ix => nu * lapF g (vval v i) ix)%R w.
Proof.
  intros Hv Hi. destruct Hv as (Hv & _). destruct (periodic_vec_nth Hv Hi) as (Hp & Hg). pose proof (pf_off Hp) as Po. pose proof (pf_wfg Hp) as Hw. rewrite Hg in Po, Hw.
  destruct (@lap_prep g _ _ _ Hw (periodic_vval Hv Hi) Po (periodic_vec_pvar Hv Hi)) as (l & El & Hl).
  unfold diffuse. rewrite El. cbn [bind]. apply prep_scalar_l. exact Hl.
Qed.

Lemma explicit_default g o bs density viscosity forcing dt v : (0 < gndim g)%nat -> length o = gndim g -> periodic_velocity g o bs v ->
  (viscosity <> None -> density <> 0%R) -> (forall f, forcing = Some f -> exists lf Fo, f v = Ok lf /\ fields_at g v lf Fo) ->
  exists l, navier_stokes_explicit_terms density viscosity (default_convect dt) diffuse forcing v = Ok l /\ periodic_velocity g o bs l /\
    (forall i, (i < gndim g)%nat -> momentum l i = match forcing with
       | Some f => match f v with Ok lf => total (gdata (nth i lf dga)) / density | Err _ => 0 end | None => 0 end)%R.
Proof.
  intros Hd Ho Hv Hden HF. destruct (@default_convect_prep g o bs v dt Hd Hv) as (lc & C & Ec & Hc & Sc). pose proof (pv_len Hv) as HL.
  pose proof (pv_wfg Hd Hv) as Hw.
  assert (HF' : exists Fo, forall f, forcing = Some f -> exists lf, f v = Ok lf /\ fields_at g v lf Fo).
  { destruct forcing as [f|]; [|exists (fun _ _ => 0%R); discriminate]. destruct (HF f eq_refl) as (lf & Fo & E & H). exists Fo. intros f' E'. injection E' as <-. eauto. }
  destruct HF' as (Fo & HF').
  assert (Hbt : forall i, (i < gndim g)%nat -> length (btypes (gbc (nth i v dgv))) = gndim g).
  { intros i Hi. destruct Hv as (Hv & _). destruct (periodic_vec_nth Hv Hi) as ((_ & Hb) & Hg). rewrite Hb, Hg. apply repeat_length. }
  set (D := fun i ix => match viscosity with Some nu => (nu / density) * lapF g (vval v i) ix | None => 0 end%R).
  destruct (@explicit_prep g density viscosity (default_convect dt) diffuse forcing v lc C D Fo) as (l & E & HLl & H); auto.
  { intros i Hi. apply Hbt. lia. }
  { intros nu i En Hi. subst viscosity. unfold D. apply (@diffuse_prep g o bs); auto. lia. }
  exists l. split; [exact E|]. split.
  - apply (@pv_intro g o bs Hd Ho v l (fun i ix => C i ix + opt_term viscosity (D i ix) + opt_term forcing (Fo i ix / density))%R Hv); [lia|]. intros i Hi. destruct (H i ltac:(lia)) as (B & P). split; [rewrite B; apply (pv_bc Hv Hi)|].
    eapply prep_off; [exact (pv_off Hd Ho Hv Hi) | exact P].
  - intros i Hi. rewrite momentum_nth by lia. destruct (H i ltac:(lia)) as (_ & P). rewrite (total_is P), !asum_plus, Sc by auto.
    assert (SD : asum (gshape g) (fun ix => opt_term viscosity (D i ix)) = 0%R).
    { unfold D. destruct viscosity as [nu|]; cbn [opt_term]; [|apply asum_0].
      rewrite asum_scal, sum_lapF; [ring | apply Hw|]. destruct Hv as (Hv & _). apply (periodic_vval Hv Hi). }
    rewrite SD. destruct forcing as [f|]; cbn [opt_term].
    + destruct (HF' f eq_refl) as (lf & Ef & Hf). rewrite Ef. assert (Hi' : (i < length v)%nat) by lia. pose proof (fields_at_nth Hf Hi') as Pf. rewrite (total_is Pf).
      unfold Rdiv. rewrite asum_scal_r. ring.
    + rewrite asum_0. ring.
Qed.

(* @prop C49 With the default convection (van Leer) and diffusion, the explicit terms of a staggered periodic velocity always exist, keep grid, offsets and boundary conditions, and the total of each component is the total of the force divided by the density (zero without forcing): convection and diffusion do not create momentum. *)
Lemma explicit_terms_momentum_lem : forall g o bs density viscosity forcing dt v,
  (0 < gndim g)%nat -> length o = gndim g -> periodic_velocity g o bs v -> (viscosity <> None -> density <> 0%R) ->
  (forall f, forcing = Some f -> exists lf Fo, f v = Ok lf /\ fields_at g v lf Fo) ->
  exists l, navier_stokes_explicit_terms density viscosity (default_convect dt) diffuse forcing v = Ok l /\ periodic_velocity g o bs l /\
    (forall i, (i < gndim g)%nat -> forcing = None -> momentum l i = 0%R) /\
    (forall i f lf w, forcing = Some f -> f v = Ok lf -> nth_error lf i = Some w -> momentum l i = (total (gdata w) / density)%R).
Proof.
  intros g o bs density viscosity forcing dt v Hd Ho Hv Hden HF.
  destruct (@explicit_default g o bs density viscosity forcing dt v Hd Ho Hv Hden HF) as (l & E & Hl & Hm).
  exists l. split; [exact E|]. split; [exact Hl|]. split.
  - intros i Hi ->. apply Hm. exact Hi.
  - intros i f lf w -> Ef Hw. destruct (HF f eq_refl) as (lf' & Fo & Ef' & (HLf & _)). rewrite Ef in Ef'. injection Ef' as <-.
    assert (Hi : (i < gndim g)%nat) by (rewrite <- (pv_len Hv), <- HLf; apply nth_error_Some; congruence).
    rewrite (Hm i Hi), Ef. rewrite (nth_error_nth _ _ _ Hw). reflexivity.
Qed.

(* @prop C49 A force with the wrong number of components, or one of whose components is at another offset or on another grid than the acceleration it is added to, is rejected with ValueError instead of being added. *)
Lemma misplaced_force_rejected_lem : forall density convect diffuse f v lc lf,
  convect v = Ok lc -> f v = Ok lf ->
  (length lf <> length lc \/ exists i c w, nth_error lc i = Some c /\ nth_error lf i = Some w /\ (~ off_eq (goff c) (goff w) \/ ggrid c <> ggrid w)) ->
  navier_stokes_explicit_terms density None convect diffuse (Some f) v = Err EValue.
Proof.
  intros density convect diffuse f v lc lf Ec Ef H. unfold navier_stokes_explicit_terms. rewrite Ec. cbn [bind]. rewrite Ef. cbn [bind].
  assert (Hs : same_trees lc (tree_div lf density) = false).
  { clear Ec Ef. revert lf H. induction lc as [|c lc IH]; intros [|w lf] H.
    - destruct H as [H | (i & c & w & H & _)]; [cbn in H; lia | destruct i; discriminate].
    - reflexivity.
    - reflexivity.
    - cbn [tree_div map same_trees]. destruct H as [H | (i & c' & w' & H1 & H2 & H3)].
      + change (map _ lf) with (tree_div lf density). rewrite IH; [apply andb_false_r|]. left. cbn in H. lia.
      + destruct i as [|i]; cbn in H1, H2.
        * injection H1 as ->. injection H2 as ->. apply andb_false_iff. left. unfold same_tree. cbn [goff ggrid]. apply andb_false_iff.
          destruct H3 as [H3|H3]; [left | right].
          -- destruct (off_eqb _ _) eqn:E; [|reflexivity]. exfalso. apply H3, off_eqb_iff, E.
          -- destruct (grid_eqb _ _) eqn:E; [|reflexivity]. exfalso. apply H3, grid_eqb_eq, E.
        * change (map _ lf) with (tree_div lf density). rewrite IH; [apply andb_false_r|]. right. exists i, c', w'. auto. }
  unfold tree_add. rewrite Hs. reflexivity.
Qed.

(* @prop C49 One step of semi_implicit_navier_stokes without forcing, for every explicit Runge-Kutta tableau (forward Euler, midpoint, Heun, RK4, ...), viscosity, density and time step: whatever fields the pressure solver returns, the step succeeds on every staggered periodic velocity, keeps grid, offsets and boundary conditions, and conserves the total of every velocity component. *)
Lemma semi_implicit_conserves_momentum_lem : forall t g o bs density viscosity dt solve v,
  (0 < gndim g)%nat -> length o = gndim g -> explicit_tableau t -> (viscosity <> None -> density <> 0%R) ->
  pressure_solver g o solve -> periodic_velocity g o bs v ->
  exists v', semi_implicit_navier_stokes t density viscosity dt (default_convect dt) diffuse solve None v = Ok v' /\
    periodic_velocity g o bs v' /\ forall i, momentum v' i = momentum v i.
Proof.
  intros t g o bs density viscosity dt solve v Hd Ho Ht Hden Hs Hv. unfold semi_implicit_navier_stokes.
  destruct (@vel_rk_pv g o bs Hd Ho 1 t (navier_stokes_explicit_terms density viscosity (default_convect dt) diffuse None) (projection solve) dt v Ht) as (u & E & Hu & Hm).
  - intros w Hw. destruct (@explicit_default g o bs density viscosity None dt w Hd Ho Hw Hden) as (l & El & Hl & Hml); [discriminate|].
    exists l. split; [exact El|]. split; [exact Hl|]. intros i. destruct (Nat.lt_ge_cases i (gndim g)) as [Hi|Hi]; [rewrite (Hml i Hi); ring|].
    rewrite momentum_out by (rewrite (pv_len Hl); exact Hi). ring.
  - intros w Hw. destruct (@projection_pv g o bs Hd Ho solve w Hw Hs) as (w' & Ew & Hw' & _). eauto.
  - exact Hv.
  - rewrite E. destruct (@projection_pv g o bs Hd Ho solve u Hu Hs) as (w' & Ew & Hw' & Hmw). exists w'. split; [exact Ew|]. split; [exact Hw'|].
    intros i. rewrite Hmw. specialize (Hm i). lra.
Qed.

(* @prop C49 One step of semi_implicit_navier_stokes, for every explicit Runge-Kutta tableau, viscosity, density, time step and forcing that returns one field per component: if the pressure solver solves its Poisson equation, the step succeeds and the new velocity has zero divergence in every cell, whatever the divergence of the old one. *)
Lemma semi_implicit_divergence_free_lem : forall t g o bs density viscosity dt solve forcing v,
  (0 < gndim g)%nat -> length o = gndim g -> explicit_tableau t -> (viscosity <> None -> density <> 0%R) ->
  solves_poisson g o solve -> periodic_velocity g o bs v ->
  (forall f w, forcing = Some f -> periodic_velocity g o bs w -> exists lf Fo, f w = Ok lf /\ fields_at g w lf Fo) ->
  exists v' d, semi_implicit_navier_stokes t density viscosity dt (default_convect dt) diffuse solve forcing v = Ok v' /\
    periodic_velocity g o bs v' /\ divergence v' = Ok d /\ is_field d g o (fun _ => 0%R).
Proof.
  intros t g o bs density viscosity dt solve forcing v Hd Ho Ht Hden Hs Hv HF. unfold semi_implicit_navier_stokes.
  pose proof (solves_is_solver Hs) as Hs'.
  destruct (@vel_rk_pv g o bs Hd Ho 0 t (navier_stokes_explicit_terms density viscosity (default_convect dt) diffuse forcing) (projection solve) dt v Ht) as (u & E & Hu & _).
  - intros w Hw. destruct (@explicit_default g o bs density viscosity forcing dt w Hd Ho Hw Hden) as (l & El & Hl & _); [intros f Ef; apply (HF f w Ef Hw)|].
    exists l. split; [exact El|]. split; [exact Hl|]. intros i. ring.
  - intros w Hw. destruct (@projection_pv g o bs Hd Ho solve w Hw Hs') as (w' & Ew & Hw' & _). eauto.
  - exact Hv.
  - rewrite E. destruct (@projection_pv g o bs Hd Ho solve u Hu Hs') as (w' & Ew & Hw' & _).
    destruct (@projection_div g o bs Hd Ho solve u Hu Hs) as (w2 & d & Ew2 & Ed & Z). rewrite Ew in Ew2. injection Ew2 as <-. exists w', d. auto.
Qed.

(** ** the default pressure solver *)
Lemma periodic_box g v : periodic_vec g v -> face_aligned (repeat (1 # 2)%Q (gndim g)) v -> box_velocity g (fun _ => true) v.
Proof.
  intros (HL & HF) Hf. split; [exact HL|]. intros i u Hu. rewrite Forall_forall in HF.
  destruct (HF u (nth_error_In _ _ Hu)) as ((Hw & Hb) & Hg). split; [exact Hw|]. split; [exact Hg|]. split; [apply (Hf i u Hu)|].
  rewrite Hg in Hb. split; [rewrite Hb; apply repeat_length|]. split; [|discriminate].
  intros a Ha. cbv beta iota. unfold periodic_axis. rewrite Hb. apply nth_error_repeat; auto.
Qed.

(* @prop C49 solve_fast_diag, the default pressure solver, is a solver of the Poisson equation for staggered periodic velocities in any dimension (at least 3 cells per axis, cutoff small against the squared axis lengths, usable implementation): it returns a cell-centred field whose laplacian is exactly the divergence of the velocity. *)
Lemma default_pressure_solver_lem : forall tpu eigh cutoff imp g,
  (0 < gndim g)%nat -> wfg g -> (0 <= cutoff)%R ->
  (forall a, (a < gndim g)%nat -> (3 <= nth a (gshape g) 0)%nat /\ (cutoff * (INR (nth a (gshape g) 0%nat) * hstep g a) ^ 2 < 2)%R) ->
  (forall b Ls, perbc g b -> laplacian_matrix_w_boundaries g (repeat (1 # 2)%Q (gndim g)) b = Ok Ls -> implementation_ready eigh Ls true imp) ->
  solves_poisson g (repeat (1 # 2)%Q (gndim g)) (fun v _ b => pressure_solve_fast_diag tpu eigh cutoff v (Some b) imp).
Proof.
  intros tpu eigh cutoff imp g Hd Hw Hc H3 Hr v q0 b Hv Hf Hb Eb.
  pose proof (periodic_box Hv Hf) as Hbox.
  destruct (@laplacian_matrices_axis_lem (mkga (afull (gshape g) 0%R) (repeat (1 # 2)%Q (gndim g)) g) b) as (Ls & EL & _).
  { split; [exact Hw|]. split; [reflexivity | apply repeat_length]. }
  { intros a Ha. cbn [ggrid goff] in *. split; [left; unfold periodic_axis; rewrite Hb; apply nth_error_repeat; exact Ha|].
    destruct (H3 a Ha) as (A & _). split; [lia | auto]. }
  cbn [ggrid goff] in EL.
  assert (Hfb : forallb (fun _ : nat => true) (seq 0 (gndim g)) = true) by (apply forallb_forall; auto).
  destruct (@fast_diag_pressure_solves_poisson_lem tpu eigh cutoff imp g (fun _ => true) v b Ls Hd Hw Hbox H3 Hc Eb EL) as (dv & q & lq & Ed & Eq & _ & Q1 & Q2 & Q3 & El & V).
  { rewrite Hfb. apply (Hr b Ls Hb EL). }
  destruct (@box_divergence_total_lem g (fun _ => true) v Hd Hw Hbox) as (w & Ew & (_ & _ & Sw & _) & Tw); [discriminate|].
  rewrite Ed in Ew. injection Ew as <-.
  exists q, dv, lq. split; [exact Eq|]. split; [exact Q1|]. split; [exact Q2|]. split; [exact Q3|]. split; [exact Ed|]. split; [exact El|].
  assert (Sl : shp (gdata lq) = gshape g).
  { assert (Hpq : periodic_field (mkgv q b)) by (split; [exact Q1 | cbn [garray gbc]; rewrite Q2; exact Hb]).
    destruct (@lap_prep _ _ _ (mkgv q b) (pf_wfg Hpq) (pf_per Hpq) (pf_off Hpq) (pf_pvar Hpq)) as (w & Ew & (_ & _ & S & _)).
    rewrite El in Ew. injection Ew as <-. cbn [garray] in S. rewrite Q2 in S. exact S. }
  split; [congruence|]. rewrite Sl. intros ix Hix. rewrite V by exact Hix. rewrite Tw. unfold Rdiv. ring.
Qed.

(** ** examples *)
Definition half2 : list Q := [(1 # 2)%Q; (1 # 2)%Q].
Lemma p34_pv : periodic_velocity p34g half2 [periodic_bc 2; periodic_bc 2] p34v.
Proof.
  split; [|split; [|split; [|reflexivity]]].
  - split; [reflexivity|]. repeat constructor; (lia || lra).
  - repeat constructor.
  - intros [|[|[|i]]] u H; simpl in H; try discriminate; injection H as <-; repeat constructor.
Qed.
Lemma p34_solver tpu eigh : solves_poisson p34g half2 (fun v _ b => pressure_solve_fast_diag tpu eigh (1 / 1000) v (Some b) (Some Fft)).
Proof.
  destruct (p34_ready eigh) as (pb & Ls & Hd & Hw & _ & H3 & _). apply (@default_pressure_solver_lem tpu eigh (1 / 1000) (Some Fft) p34g Hd Hw); [lra | exact H3|].
  intros; exact I.
Qed.
Lemma rk4_explicit : explicit_tableau (mktab [[1 / 2]; [0; 1 / 2]; [0; 0; 1]] [1 / 6; 1 / 3; 1 / 3; 1 / 6])%R.
Proof.
  split; [reflexivity|]. intros [|[|[|[|i]]]] row H; cbn in H; try discriminate; injection H as <-; cbn; lia.
Qed.
(** a force of 1 along axis 0 *)
Definition push (v : list gvar) : result (list garr) :=
  Ok (map (fun iu => mkga (afull (shp (gdata (garray (snd iu)))) (if (fst iu =? 0)%nat then 1%R else 0%R)) (goff (garray (snd iu))) (ggrid (garray (snd iu)))) (enumerate v)).
Lemma push_fields g o bs v : periodic_velocity g o bs v -> exists lf Fo, push v = Ok lf /\ fields_at g v lf Fo.
Proof.
  intros (Hv & _). exists (map (fun iu => mkga (afull (shp (gdata (garray (snd iu)))) (if (fst iu =? 0)%nat then 1%R else 0%R)) (goff (garray (snd iu))) (ggrid (garray (snd iu)))) (enumerate v)), (fun i _ => if (i =? 0)%nat then 1%R else 0%R).
  split; [reflexivity|]. apply fields_at_intro; unfold enumerate; [rewrite map_length, combine_length, seq_length; lia|].
  intros i Hi. rewrite (nth_map' _ _ (0%nat, dgv) dga) by (rewrite combine_length, seq_length; lia). rewrite combine_nth by apply seq_length. rewrite seq_nth by auto. cbn [fst snd Nat.add].
  destruct Hv as (_ & HF). rewrite Forall_forall in HF. destruct (HF (nth i v dgv) (nth_In _ _ Hi)) as (((_ & S & _) & _) & Hg).
  split; [exact Hg|]. split; [apply off_eq_refl|]. split; [cbn [gdata afull shp]; rewrite S, Hg; reflexivity|]. intros ix _. reflexivity.
Qed.
(* @ex *)
Lemma explicit_terms_combination_ex_lem : exists lc C D lf Fo,
  (forall u, In u p34v -> length (btypes (gbc u)) = gndim p34g) /\ (Some 3%R <> None -> 2 <> 0)%R /\
  default_convect 1 p34v = Ok lc /\ fields_at p34g p34v lc C /\
  (forall nu i u, Some 3%R = Some nu -> nth_error p34v i = Some u -> exists w, diffuse u (nu / 2)%R = Ok w /\ is_field w p34g (goff (garray u)) (D i)) /\
  push p34v = Ok lf /\ fields_at p34g p34v lf Fo.
Proof.
  destruct (@default_convect_prep p34g half2 _ p34v 1 ltac:(cbn; lia) p34_pv) as (lc & C & Ec & Hc & _).
  destruct (push_fields p34_pv) as (lf & Fo & Ef & Hf).
  exists lc, C, (fun i ix => 3 / 2 * lapF p34g (vval p34v i) ix)%R, lf, Fo.
  split; [intros u [<- | [<- | []]]; reflexivity|]. split; [intros _; lra|]. split; [exact Ec|]. split; [exact Hc|]. split; [|split; [exact Ef | exact Hf]].
  intros nu i u E Hu. injection E as <-. assert (Hi : (i < gndim p34g)%nat) by (change (i < length p34v)%nat; apply nth_error_Some; congruence).
  destruct (diffuse_prep (3 / 2) p34_pv Hi) as (w & Ew & Hw). rewrite (nth_error_nth _ _ _ Hu) in *. exists w. auto.
Qed.
(* @ex *)
Lemma explicit_terms_momentum_ex_lem : exists lf Fo,
  (0 < gndim p34g)%nat /\ length half2 = gndim p34g /\ periodic_velocity p34g half2 [periodic_bc 2; periodic_bc 2] p34v /\ (Some 3%R <> None -> 2 <> 0)%R /\
  push p34v = Ok lf /\ fields_at p34g p34v lf Fo /\ momentum p34v 0 = 4%R /\ momentum p34v 1 = 9%R.
Proof.
  destruct (push_fields p34_pv) as (lf & Fo & Ef & Hf). exists lf, Fo. split; [cbn; lia|]. split; [reflexivity|]. split; [exact p34_pv|]. split; [intros _; lra|].
  split; [exact Ef|]. split; [exact Hf|]. split; unfold momentum, total; cbn; lra.
Qed.
(* @ex *)
Lemma misplaced_force_rejected_ex_lem : exists lc,
  default_convect 1 p34v = Ok lc /\
  (fun _ : list gvar => Ok [mkga (afull [3%nat; 4%nat] 1%R) half2 p34g; mkga (afull [3%nat; 4%nat] 1%R) half2 p34g]) p34v = Ok [mkga (afull [3%nat; 4%nat] 1%R) half2 p34g; mkga (afull [3%nat; 4%nat] 1%R) half2 p34g] /\
  exists i c w, nth_error lc i = Some c /\ nth_error [mkga (afull [3%nat; 4%nat] 1%R) half2 p34g; mkga (afull [3%nat; 4%nat] 1%R) half2 p34g] i = Some w /\ ~ off_eq (goff c) (goff w).
Proof.
  destruct (@default_convect_prep p34g half2 _ p34v 1 ltac:(cbn; lia) p34_pv) as (lc & C & Ec & Hc & _). exists lc. split; [exact Ec|]. split; [reflexivity|].
  destruct Hc as (HL & Hc). destruct lc as [|c lc]; [discriminate|]. exists 0%nat, c. eexists. split; [reflexivity|]. split; [reflexivity|]. cbn [goff].
  destruct (Hc 0%nat _ c eq_refl eq_refl) as (_ & A & _). cbn [garray goff] in A. intros B. pose proof (off_eq_trans (off_eq_sym B) A) as X. inversion X as [|? ? ? ? X1 _]; subst. discriminate X1.
Qed.
(* @ex *)
Lemma semi_implicit_conserves_momentum_ex_lem : forall tpu eigh,
  (0 < gndim p34g)%nat /\ length half2 = gndim p34g /\ explicit_tableau (mktab [[1 / 2]; [0; 1 / 2]; [0; 0; 1]] [1 / 6; 1 / 3; 1 / 3; 1 / 6])%R /\
  pressure_solver p34g half2 (fun v _ b => pressure_solve_fast_diag tpu eigh (1 / 1000) v (Some b) (Some Fft)) /\
  periodic_velocity p34g half2 [periodic_bc 2; periodic_bc 2] p34v.
Proof.
  intros tpu eigh. split; [cbn; lia|]. split; [reflexivity|]. split; [exact rk4_explicit|]. split; [exact (solves_is_solver (p34_solver tpu eigh)) | exact p34_pv].
Qed.
(* @ex *)
Lemma semi_implicit_divergence_free_ex_lem : forall tpu eigh,
  (0 < gndim p34g)%nat /\ length half2 = gndim p34g /\ explicit_tableau (mktab [[1 / 2]; [0; 1 / 2]; [0; 0; 1]] [1 / 6; 1 / 3; 1 / 3; 1 / 6])%R /\
  solves_poisson p34g half2 (fun v _ b => pressure_solve_fast_diag tpu eigh (1 / 1000) v (Some b) (Some Fft)) /\
  periodic_velocity p34g half2 [periodic_bc 2; periodic_bc 2] p34v /\
  (forall f w, Some push = Some f -> periodic_velocity p34g half2 [periodic_bc 2; periodic_bc 2] w -> exists lf Fo, f w = Ok lf /\ fields_at p34g w lf Fo) /\
  exists d, divergence p34v = Ok d /\ get (gdata d) [0; 0] = 1%R.
Proof.
  intros tpu eigh. split; [cbn; lia|]. split; [reflexivity|]. split; [exact rk4_explicit|]. split; [exact (p34_solver tpu eigh)|]. split; [exact p34_pv|].
  split; [intros f w E Hw; injection E as <-; apply (push_fields Hw)|].
  destruct (@divergence_spec_lem p34g half2 p34v ltac:(cbn; lia) (proj1 p34_pv) eq_refl (proj1 (proj2 (proj2 p34_pv)))) as (d & E & (_ & _ & _ & V)).
  exists d. split; [exact E|]. rewrite V by (cbn; lia). cbn. unfold hstep. cbn. lra.
Qed.
(* @ex *)
Lemma default_pressure_solver_ex_lem : forall eigh,
  (0 < gndim p34g)%nat /\ wfg p34g /\ (0 <= 1 / 1000)%R /\
  (forall a, (a < gndim p34g)%nat -> (3 <= nth a (gshape p34g) 0)%nat /\ (1 / 1000 * (INR (nth a (gshape p34g) 0%nat) * hstep p34g a) ^ 2 < 2)%R) /\
  (forall b Ls, perbc p34g b -> laplacian_matrix_w_boundaries p34g (repeat (1 # 2)%Q (gndim p34g)) b = Ok Ls -> implementation_ready eigh Ls true (Some Fft)).
Proof.
  intros eigh. destruct (p34_ready eigh) as (pb & Ls & Hd & Hw & _ & H3 & _). split; [exact Hd|]. split; [exact Hw|]. split; [lra|]. split; [exact H3|]. intros; exact I.
Qed.
