(** * C77: the steps of the Navier-Stokes solvers on mirror images *)
From Verif Require Import Prelude NdArr Grids_model Spec SpecLin SpecDiag SpecDiff LinAlg Cplx Boundaries_model BoundariesPeriodic FD_model LaplacianProps PRep FDProofs FDProps WallBC WallBCProps ImposeProps WallFD Pressure_model PressureProps WallFDProps ProjectionProps Interp_model InterpProofs InterpProps UpwindProps TvdProps Advection_model AdvectionProofs AdvectionProps FastDiag_model Laplacian_model PressureSolve_model PressureSolveProps Diffusion_model DiffusionProps ImplicitDiffusionProps QRProps TimeStep_model Equations_model SpecNS EquationsProps EquationsMoreProps LearnedProps SpecRollout SpecSym SymBase SymEx SymProps SymVelProps SymStepProps SymMoreProps SpecReflect ReflectBase ReflectProps.
Set Implicit Arguments.
Local Open Scope Z_scope.

(** ** Runge-Kutta steps preserve every relation that sums and multiples preserve *)
Section RK.
Variable VR : list gvar -> list gvar -> Prop.
Hypothesis Hadd : forall a a' b b', VR a a' -> VR b b' -> exists c c', vel_add a b = Ok c /\ vel_add a' b' = Ok c' /\ VR c c'.
Hypothesis Hscal : forall t a a', VR a a' -> VR (vel_scal t a) (vel_scal t a').
Definition VRo (x x' : option (list gvar)) : Prop := match x, x' with None, None => True | Some x, Some x' => VR x x' | _, _ => False end.
Lemma wsum_gen row ks ks' r : (r <= length row)%nat -> (r <= length ks)%nat -> (r <= length ks')%nat -> (forall j, (j < r)%nat -> VR (nth j ks []) (nth j ks' [])) ->
  exists x x', vel_wsum row ks r = Ok x /\ vel_wsum row ks' r = Ok x' /\ VRo x x'.
Proof.
  intros Hr Hk Hk' H. unfold vel_wsum. induction r as [|r IH].
  - exists None, None. split; [reflexivity|]. split; [reflexivity | exact I].
  - destruct IH as (x & x' & E & E' & Hx); [lia | lia | lia | intros j Hj; apply H; lia|]. rewrite !seq_S, !foldM_app, E, E'. cbn [bind foldM Nat.add].
    rewrite (nth_error_nth' row 0%R) by lia. rewrite (nth_error_nth' ks []), (nth_error_nth' ks' []) by lia.
    destruct (nz (nth r row 0%R)); [|exists x, x'; split; [reflexivity|]; split; [reflexivity | exact Hx]].
    assert (Z : VR (vel_scal (nth r row 0%R) (nth r ks [])) (vel_scal (nth r row 0%R) (nth r ks' []))) by (apply Hscal; apply H; lia).
    destruct x as [x|], x' as [x'|]; try contradiction.
    + destruct (Hadd Hx Z) as (c & c' & Ec & Ec' & Hc). rewrite Ec, Ec'. cbn [bind]. exists (Some c), (Some c'). auto.
    + cbn [bind]. eexists _, _. split; [reflexivity|]. split; [reflexivity | exact Z].
Qed.
Lemma update_gen dt u u' x x' : VR u u' -> VRo x x' -> exists w w', vel_update u dt x = Ok w /\ vel_update u' dt x' = Ok w' /\ VR w w'.
Proof.
  intros Hu Hx. destruct x as [x|], x' as [x'|]; try contradiction; cbn [vel_update].
  - apply Hadd; [exact Hu|]. apply Hscal. exact Hx.
  - exists u, u'. auto.
Qed.
Lemma vel_rk_gen t F F' P P' dt u u' : explicit_tableau t ->
  (forall v v', VR v v' -> exists w w', F v = Ok w /\ F' v' = Ok w' /\ VR w w') ->
  (forall v v', VR v v' -> exists w w', P v = Ok w /\ P' v' = Ok w' /\ VR w w') -> VR u u' ->
  exists w w', vel_rk t F P dt u = Ok w /\ vel_rk t F' P' dt u' = Ok w' /\ VR w w'.
Proof.
  intros (Hab & Hrow) HF HP H0. unfold vel_rk. destruct (length (tb t)) as [|m] eqn:Hlen; [lia|].
  destruct (HF u u' H0) as (k0 & k0' & Ek0 & Ek0' & Hk0). rewrite Ek0, Ek0'. cbn [bind]. replace (S m - 1)%nat with m by lia.
  set (stage := fun (F P : list gvar -> result (list gvar)) u0 ks i => match nth_error (ta t) (i - 1) with
       | None => Err EIndex
       | Some row => let* s := vel_wsum row ks i in let* u_star := vel_update u0 dt s in let* ui := P u_star in let* ki := F ui in Ok (ks ++ [ki]) end).
  assert (Hgen : forall j, (j <= m)%nat -> exists ks ks', foldM (stage F P u) [k0] (seq 1 j) = Ok ks /\ foldM (stage F' P' u') [k0'] (seq 1 j) = Ok ks' /\
       length ks = S j /\ length ks' = S j /\ forall l, (l < S j)%nat -> VR (nth l ks []) (nth l ks' [])).
  { induction j as [|j IH]; intros Hj.
    - exists [k0], [k0']. do 4 (split; [reflexivity|]). intros [|l] Hl; [exact Hk0 | lia].
    - destruct IH as (ks & ks' & E & E' & HL & HL' & Hks); [lia|]. rewrite !seq_S, !foldM_app, E, E'. cbn [bind foldM]. unfold stage. replace (1 + j - 1)%nat with j by lia.
      assert (Hj' : (j < length (ta t))%nat) by lia. rewrite (nth_error_nth' (ta t) []) by auto.
      pose proof (Hrow j (nth j (ta t) []) (nth_error_nth' _ _ Hj')) as Hlr.
      destruct (@wsum_gen (nth j (ta t) []) ks ks' (1 + j)) as (x & x' & Es & Es' & Hx); [lia | lia | lia | intros l Hl; apply Hks; lia|].
      rewrite Es, Es'. cbn [bind]. destruct (update_gen dt x x' H0 Hx) as (w & w' & Ew & Ew' & Hw). rewrite Ew, Ew'. cbn [bind].
      destruct (HP w w' Hw) as (ui & ui' & Eui & Eui' & Hui). rewrite Eui, Eui'. cbn [bind]. destruct (HF ui ui' Hui) as (ki & ki' & Eki & Eki' & Hki). rewrite Eki, Eki'. cbn [bind].
      exists (ks ++ [ki]), (ks' ++ [ki']). split; [reflexivity|]. split; [reflexivity|]. split; [rewrite app_length; simpl; lia|]. split; [rewrite app_length; simpl; lia|]. intros l Hl.
      destruct (Nat.eq_dec l (S j)) as [->|Hne]; [rewrite !app_nth2 by lia; rewrite HL, HL', Nat.sub_diag; exact Hki | rewrite !app_nth1 by lia; apply Hks; lia]. }
  destruct (Hgen m (le_n m)) as (ks & ks' & E & E' & HL & HL' & Hks).
  change (exists w w', (let* ks := foldM (stage F P u) [k0] (seq 1 m) in let* s := vel_wsum (tb t) ks (S m) in let* us := vel_update u dt s in P us) = Ok w /\
    (let* ks := foldM (stage F' P' u') [k0'] (seq 1 m) in let* s := vel_wsum (tb t) ks (S m) in let* us := vel_update u' dt s in P' us) = Ok w' /\ VR w w').
  rewrite E, E'. cbn [bind].
  destruct (@wsum_gen (tb t) ks ks' (S m)) as (x & x' & Es & Es' & Hx); [lia | lia | lia | exact Hks|]. rewrite Es, Es'. cbn [bind].
  destruct (update_gen dt x x' H0 Hx) as (w & w' & Ew & Ew' & Hw). rewrite Ew, Ew'. cbn [bind]. apply HP. exact Hw.
Qed.
End RK.

Section Vel.
Variables (g : grid) (a : nat) (m : Z) (o : list Q) (bs : list bcs).
Let n := gndim g.
Hypothesis (Ha : (a < n)%nat) (Ho : length o = n).
Local Notation rel := (mrel g a m).
Local Notation PV := (periodic_velocity g o bs).
Let Hd : (0 < gndim g)%nat.
Proof. unfold n in Ha. lia. Qed.
Definition vmir (v v' : list gvar) : Prop := PV v /\ PV v' /\ forall i, (i < n)%nat -> rel (hd a i) (sg a i) (vval v i) (vval v' i).
Lemma vmir_iff v v' : vmir v v' <-> PV v /\ PV v' /\ mirrored_velocity n a m v v'.
Proof. pose proof (vector_iff g a m (vval v) (vval v')) as H. split; intros (A & B & C); (split; [exact A|]; split; [exact B|]); apply H; exact C. Qed.
Lemma vval_nth v i : length v = n -> (i < n)%nat -> vval v i = pval (garray (nth i v dgv)).
Proof. intros L Hi. unfold vval. rewrite (nth_error_nth' v dgv) by lia. reflexivity. Qed.

Lemma vmir_intro v0 v0' w w' F F' : PV v0 -> PV v0' -> length w = n -> length w' = n ->
  (forall i, (i < n)%nat -> gbc (nth i w dgv) = nth i bs (gbc dgv) /\ prep g (offs i (1 # 2) o) (F i) (garray (nth i w dgv))) ->
  (forall i, (i < n)%nat -> gbc (nth i w' dgv) = nth i bs (gbc dgv) /\ prep g (offs i (1 # 2) o) (F' i) (garray (nth i w' dgv))) ->
  (forall i, (i < n)%nat -> periodic (gshape g) (F i)) -> (forall i, (i < n)%nat -> rel (hd a i) (sg a i) (F i) (F' i)) -> vmir w w'.
Proof.
  intros H0 H0' L L' H H' HP HR. pose proof (pv_wfg Hd H0) as Hw.
  split; [exact (pv_intro Hd Ho _ _ H0 L H)|]. split; [exact (pv_intro Hd Ho _ _ H0' L' H')|].
  intros i Hi. rewrite (vval_nth _ L Hi), (vval_nth _ L' Hi). exact (@prep_mrel g a m Ha Hw _ _ _ _ _ _ _ _ (proj2 (H i Hi)) (proj2 (H' i Hi)) (HP i Hi) (HR i Hi)).
Qed.
Lemma add_mir x x' y y' : vmir x x' -> vmir y y' -> exists c c', vel_add x y = Ok c /\ vel_add x' y' = Ok c' /\ vmir c c'.
Proof.
  intros (A & A' & RA) (B & B' & RB). destruct (vel_add_vals Hd Ho A B) as (c & E & Pc & Vc). destruct (vel_add_vals Hd Ho A' B') as (c' & E' & Pc' & Vc').
  exists c, c'. split; [exact E|]. split; [exact E'|]. split; [exact Pc|]. split; [exact Pc'|]. intros i Hi. pose proof (pv_wfg Hd A) as Hw.
  apply (@mrel_ext g a m) with (F := fun ix => (vval x i ix + vval y i ix)%R) (F' := fun ix => (vval x' i ix + vval y' i ix)%R).
  - intros ix HL. symmetry. apply (@periodic_ext_all (gshape g) (vval c i) (fun ix => vval x i ix + vval y i ix)%R); auto.
    + apply Hw. + apply (periodic_vval (proj1 Pc) Hi).
    + intros jx HLj. rewrite (periodic_vval (proj1 A) Hi jx HLj), (periodic_vval (proj1 B) Hi jx HLj). reflexivity.
  - intros ix HL. symmetry. apply (@periodic_ext_all (gshape g) (vval c' i) (fun ix => vval x' i ix + vval y' i ix)%R); auto.
    + apply Hw. + apply (periodic_vval (proj1 Pc') Hi).
    + intros jx HLj. rewrite (periodic_vval (proj1 A') Hi jx HLj), (periodic_vval (proj1 B') Hi jx HLj). reflexivity.
  - apply mrel_plus; [apply RA | apply RB]; auto.
Qed.
Lemma scal_mir t x x' : vmir x x' -> vmir (vel_scal t x) (vel_scal t x').
Proof.
  intros (A & A' & RA). split; [apply (vel_scal_pv Hd Ho t A)|]. split; [apply (vel_scal_pv Hd Ho t A')|].
  pose proof (pv_len A) as LA. pose proof (pv_len A') as LA'. intros i Hi.
  apply (@mrel_ext g a m) with (F := fun ix => (t * vval x i ix)%R) (F' := fun ix => (t * vval x' i ix)%R).
  - intros ix HL. rewrite vel_scal_val by (unfold n in *; lia). reflexivity.
  - intros ix HL. rewrite vel_scal_val by (unfold n in *; lia). reflexivity.
  - apply mrel_scal. apply RA; auto.
Qed.

Lemma projection_mir solve solve' v v' : solves_poisson g o solve -> solves_poisson g o solve' -> vmir v v' ->
  exists w w', projection solve v = Ok w /\ projection solve' v' = Ok w' /\ vmir w w'.
Proof.
  intros Hsol Hsol' (A & A' & RA). pose proof (pv_wfg Hd A) as Hw.
  destruct (projection_values Hd Ho A Hsol) as (w & Q & E & L & PQ & LQ & W). destruct (projection_values Hd Ho A' Hsol') as (w' & Q' & E' & L' & PQ' & LQ' & W').
  exists w, w'. split; [exact E|]. split; [exact E'|].
  set (G := fun ix => (1 * Q (mirror_cell a (m - 0) ix))%R). assert (RG : rel 0 1 Q G) by (intros ix _; reflexivity).
  assert (PG : periodic (gshape g) G) by exact (@mrel_periodic g a m Ha 0 1 Q G RG PQ).
  assert (ZD : forall i ix, (i < n)%nat -> length ix = n -> fdF g i (fun jx => Q' jx - G jx)%R ix = 0%R).
  { intros i ix Hi HL. apply (@harmonic_const g g (translation (fun _ => 0)) 1 (translation_grid _ _)); auto; [apply Hw | intros jx HLj; rewrite (PQ' jx HLj), (PG jx HLj); reflexivity|].
    intros jx Hjx. pose proof (inb_length _ _ Hjx) as HLj. change (length jx = n) in HLj.
    rewrite lapF_minus, LQ' by exact HLj. rewrite (@mrel_lapF g a m Ha 0 1 Q G RG jx HLj).
    assert (RD : rel 0 1 (divF g (vval v)) (divF g (vval v'))).
    { apply (@mrel_divF g a m Ha). intros i0 Hi0. apply (@mrel_eq g a m (hd a i0) (0 + hd a i0) (sg a i0) (1 * sg a i0)); [lia | ring | apply RA; auto]. }
    rewrite (RD jx HLj). rewrite LQ by (rewrite mir_length; exact HLj). ring. }
  refine (@vmir_intro v v' w w' (fun i ix => vval v i ix - fdF g i Q ix)%R (fun i ix => vval v' i ix - fdF g i Q' ix)%R A A' L L' W W' _ _).
  - intros i Hi ix HL. rewrite (periodic_vval (proj1 A) Hi ix HL). rewrite (@periodic_fdF g i Q PQ ix HL). reflexivity.
  - intros i Hi. apply mrel_minus; [apply RA; auto|].
    apply (@mrel_ext g a m) with (F := fdF g i Q) (F' := fdF g i G); [reflexivity | |].
    + intros ix HL. pose proof (ZD i ix Hi HL) as Z. unfold fdF in Z |- *. unfold Rdiv in *. lra.
    + apply (@mrel_eq g a m (0 + hd a i) (hd a i) (1 * sg a i) (sg a i)); [lia | ring|]. apply (@mrel_fdF g a m Ha). exact RG.
Qed.
Lemma field_at_nth l i : length l = n -> (i < n)%nat -> field_at l i = pval (nth i l dga).
Proof. intros L Hi. unfold field_at. rewrite (nth_error_nth' l dga) by lia. reflexivity. Qed.
Lemma fields_mir l l' i : mirrored_fields n a m l l' -> length l = n -> length l' = n -> (i < n)%nat -> rel (hd a i) (sg a i) (pval (nth i l dga)) (pval (nth i l' dga)).
Proof. intros H L L' Hi. rewrite <- (field_at_nth l L Hi), <- (field_at_nth l' L' Hi). apply (proj1 (@vector_iff g a m (field_at l) (field_at l')) H); auto. Qed.

Lemma explicit_mir rho nu convect convect' forcing forcing' v v' : (nu <> None -> rho <> 0%R) ->
  mirror_alike g o bs a m convect convect' -> optional_mirror g o bs a m forcing forcing' -> vmir v v' ->
  exists l l', navier_stokes_explicit_terms rho nu convect diffuse forcing v = Ok l /\ navier_stokes_explicit_terms rho nu convect' diffuse forcing' v' = Ok l' /\ vmir l l'.
Proof.
  intros Hrho Hcv Hf Hvv. pose proof (proj2 (proj2 (proj1 (vmir_iff v v') Hvv))) as MV. destruct Hvv as (Hv & Hv' & RV).
  pose proof (pv_len Hv) as LV. pose proof (pv_len Hv') as LV'. pose proof (pv_wfg Hd Hv) as Hw.
  destruct (Hcv v v' Hv Hv' MV) as (lc & lc' & C & C' & Ec & Ec' & Fc & Fc' & Rc).
  assert (HF : exists Fo Fo', (forall f, forcing = Some f -> exists lf, f v = Ok lf /\ fields_at g v lf Fo) /\ (forall f, forcing' = Some f -> exists lf, f v' = Ok lf /\ fields_at g v' lf Fo') /\
     (forall i, (i < n)%nat -> periodic (gshape g) (Fo i)) /\
     (forall i, (i < n)%nat -> rel (hd a i) (sg a i) (fun ix => opt_term forcing (Fo i ix / rho)%R) (fun ix => opt_term forcing' (Fo' i ix / rho)%R))).
  { destruct forcing as [f|], forcing' as [f'|]; cbn [optional_mirror] in Hf; try contradiction.
    - destruct (Hf v v' Hv Hv' MV) as (lf & lf' & F & F' & Ef & Ef' & Ff & Ff' & Rf).
      exists (fun i => pval (nth i lf dga)), (fun i => pval (nth i lf' dga)).
      split; [intros f0 E0; injection E0 as <-; exists lf; split; [exact Ef | apply (fields_at_pval Ff)]|].
      split; [intros f0 E0; injection E0 as <-; exists lf'; split; [exact Ef' | apply (fields_at_pval Ff')]|].
      split; [intros i Hi; apply (fields_pval Ff); unfold n in Hi; lia|].
      intros i Hi ix HL. cbn [opt_term]. assert (L1 : length lf = n) by (rewrite (proj1 Ff); exact LV). assert (L2 : length lf' = n) by (rewrite (proj1 Ff'), LV'; reflexivity). rewrite (@fields_mir lf lf' i Rf L1 L2 Hi ix HL).
      unfold Rdiv. ring.
    - exists (fun _ _ => 0%R), (fun _ _ => 0%R). split; [discriminate|]. split; [discriminate|]. split; [intros i _ ix _; reflexivity|]. intros i Hi ix HL. cbn [opt_term]. ring. }
  destruct HF as (Fo & Fo' & HF & HF' & PF & RF).
  set (D := fun i ix => match nu with Some x => (x / rho * lapF g (vval v i) ix)%R | None => 0%R end).
  set (D' := fun i ix => match nu with Some x => (x / rho * lapF g (vval v' i) ix)%R | None => 0%R end).
  assert (PD : forall i, (i < n)%nat -> periodic (gshape g) (D i)).
  { intros i Hi ix HL. unfold D. destruct nu; [|reflexivity]. rewrite (@periodic_lapF g _ (periodic_vval (proj1 Hv) Hi) ix HL). reflexivity. }
  assert (RD : forall i, (i < n)%nat -> rel (hd a i) (sg a i) (fun ix => opt_term nu (D i ix)) (fun ix => opt_term nu (D' i ix))).
  { intros i Hi ix HL. unfold D, D'. destruct nu as [x|]; cbn [opt_term]; [|ring].
    rewrite (@mrel_lapF g a m Ha _ _ _ _ (RV i Hi) ix HL). ring. }
  assert (Bt : forall vv i, PV vv -> (i < length vv)%nat -> length (btypes (gbc (nth i vv dgv))) = gndim g).
  { intros vv i Hvv Hi. rewrite (pv_len Hvv) in Hi. destruct (periodic_vec_nth (proj1 Hvv) Hi) as ((_ & Hb) & G). rewrite Hb, G. apply repeat_length. }
  destruct (@explicit_prep g rho nu convect diffuse forcing v lc (fun i => pval (nth i lc dga)) D Fo) as (l & El & Ll & Hl); auto.
  { apply (fields_at_pval Fc). }
  { intros x i Ex Hi. unfold D. rewrite Ex. apply (@diffuse_prep g o bs v (x / rho) i Hv). lia. }
  destruct (@explicit_prep g rho nu convect' diffuse forcing' v' lc' (fun i => pval (nth i lc' dga)) D' Fo') as (l' & El' & Ll' & Hl'); auto.
  { apply (fields_at_pval Fc'). }
  { intros x i Ex Hi. unfold D'. rewrite Ex. apply (@diffuse_prep g o bs v' (x / rho) i Hv'). lia. }
  exists l, l'. split; [exact El|]. split; [exact El'|].
  refine (@vmir_intro v v' l l' _ _ Hv Hv' _ _ _ _ _ _).
  - unfold n in *; lia.
  - unfold n in *; lia.
  - intros i Hi. destruct (Hl i ltac:(unfold n in *; lia)) as (A & B). split; [rewrite A; apply (pv_bc Hv Hi)|]. eapply prep_off; [apply (pv_off Hd Ho Hv Hi) | exact B].
  - intros i Hi. destruct (Hl' i ltac:(unfold n in *; lia)) as (A & B). split; [rewrite A; apply (pv_bc Hv' Hi)|]. eapply prep_off; [apply (pv_off Hd Ho Hv' Hi) | exact B].
  - intros i Hi ix HL. cbv beta. destruct (@fields_pval g v lc C i Fc ltac:(unfold n in *; lia)) as (_ & P). rewrite (P ix HL), (PD i Hi ix HL), (PF i Hi ix HL). reflexivity.
  - intros i Hi. cbv beta. apply mrel_plus; [apply mrel_plus|].
    + apply (fields_mir Rc); auto; [rewrite (proj1 Fc); exact LV | rewrite (proj1 Fc'), LV'; reflexivity].
    + apply (RD i Hi).
    + apply (RF i Hi).
Qed.
Lemma semi_mir t rho nu dt convect convect' forcing forcing' solve solve' v v' : explicit_tableau t -> (nu <> None -> rho <> 0%R) ->
  mirror_alike g o bs a m convect convect' -> optional_mirror g o bs a m forcing forcing' -> solves_poisson g o solve -> solves_poisson g o solve' -> vmir v v' ->
  exists w w', semi_implicit_navier_stokes t rho nu dt convect diffuse solve forcing v = Ok w /\
    semi_implicit_navier_stokes t rho nu dt convect' diffuse solve' forcing' v' = Ok w' /\ vmir w w'.
Proof.
  intros Ht Hrho Hcv Hf Hsol Hsol' Hv. unfold semi_implicit_navier_stokes. apply (@vel_rk_gen vmir add_mir scal_mir t); auto.
  - intros w w' Hww. apply explicit_mir; auto.
  - intros w w' Hww. apply projection_mir; auto.
Qed.

Lemma diffusion_mir c v v' w w' : (0 <= c)%R -> vmir v v' -> Forall2 (implicitly_diffused c) v w -> Forall2 (implicitly_diffused c) v' w' -> vmir w w'.
Proof.
  intros Hc (Hv & Hv' & R) D D'. pose proof (pv_wfg Hd Hv) as Hw.
  destruct (@diffused_pv g o bs Hd Ho c v w Hv D) as (Pw & Ew). destruct (@diffused_pv g o bs Hd Ho c v' w' Hv' D') as (Pw' & Ew').
  split; [exact Pw|]. split; [exact Pw'|]. intros i Hi.
  set (G := fun ix => (sg a i * vval w i (mirror_cell a (m - hd a i) ix))%R). assert (RG : rel (hd a i) (sg a i) (vval w i) G) by (intros ix _; reflexivity).
  assert (PG : periodic (gshape g) G) by exact (@mrel_periodic g a m Ha _ _ _ G RG (periodic_vval (proj1 Pw) Hi)).
  assert (Z : forall ix, inb (gshape g) ix -> (vval w' i ix - G ix = 0)%R).
  { apply (@helmholtz_zero g c (fun ix => vval w' i ix - G ix)%R); [apply Hw | exact Hc | |].
    - intros ix HL. rewrite (periodic_vval (proj1 Pw') Hi ix HL), (PG ix HL). reflexivity.
    - intros ix Hix. pose proof (inb_length _ _ Hix) as HL. change (length ix = n) in HL. rewrite lapF_minus.
      pose proof (Ew' i ix Hi HL) as E1. assert (HLm : length (mirror_cell a (m - hd a i) ix) = gndim g) by (rewrite mir_length; exact HL). pose proof (Ew i _ Hi HLm) as E2. pose proof (R i Hi ix HL) as E3.
      rewrite (@mrel_lapF g a m Ha _ _ _ _ RG ix HL). rewrite E3, <- E2 in E1. unfold G. lra. }
  intros ix HL. assert (E : (vval w' i ix - G ix = 0)%R).
  { apply (@periodic_ext_all (gshape g) (fun ix => vval w' i ix - G ix)%R (fun _ => 0%R)); auto; [apply Hw | | intros jx _; reflexivity].
    intros jx HLj. rewrite (periodic_vval (proj1 Pw') Hi jx HLj), (PG jx HLj). reflexivity. }
  unfold G in E. lra.
Qed.
Lemma implicit_mir rho nu dt convect convect' forcing forcing' ds ds' solve solve' v v' : (0 <= dt * nu)%R ->
  mirror_alike g o bs a m convect convect' -> optional_mirror g o bs a m forcing forcing' -> solves_poisson g o solve -> solves_poisson g o solve' ->
  (forall u, PV u -> exists u', ds u nu dt = Ok u' /\ Forall2 (implicitly_diffused (dt * nu)) u u') ->
  (forall u, PV u -> exists u', ds' u nu dt = Ok u' /\ Forall2 (implicitly_diffused (dt * nu)) u u') -> vmir v v' ->
  exists w w', implicit_diffusion_navier_stokes rho nu dt convect ds solve forcing v = Ok w /\
    implicit_diffusion_navier_stokes rho nu dt convect' ds' solve' forcing' v' = Ok w' /\ vmir w w'.
Proof.
  intros Hpos Hcv Hf Hsol Hsol' Hds Hds' Hvv. pose proof (proj2 (proj2 (proj1 (vmir_iff v v') Hvv))) as MV. destruct Hvv as (Hv & Hv' & RV).
  pose proof (pv_len Hv) as LV. pose proof (pv_len Hv') as LV'.
  destruct (Hcv v v' Hv Hv' MV) as (lc & lc' & C & C' & Ec & Ec' & Fc & Fc' & Rc).
  assert (HF : exists Fo Fo', (forall f, forcing = Some f -> exists lf, f v = Ok lf /\ fields_at g v lf Fo) /\ (forall f, forcing' = Some f -> exists lf, f v' = Ok lf /\ fields_at g v' lf Fo') /\
     (forall i, (i < n)%nat -> periodic (gshape g) (Fo i)) /\
     (forall i, (i < n)%nat -> rel (hd a i) (sg a i) (fun ix => match forcing with Some _ => Fo i ix / rho | None => 0 end)%R
        (fun ix => match forcing' with Some _ => Fo' i ix / rho | None => 0 end)%R)).
  { destruct forcing as [f|], forcing' as [f'|]; cbn [optional_mirror] in Hf; try contradiction.
    - destruct (Hf v v' Hv Hv' MV) as (lf & lf' & F & F' & Ef & Ef' & Ff & Ff' & Rf).
      exists (fun i => pval (nth i lf dga)), (fun i => pval (nth i lf' dga)).
      split; [intros f0 E0; injection E0 as <-; exists lf; split; [exact Ef | apply (fields_at_pval Ff)]|].
      split; [intros f0 E0; injection E0 as <-; exists lf'; split; [exact Ef' | apply (fields_at_pval Ff')]|].
      split; [intros i Hi; apply (fields_pval Ff); unfold n in Hi; lia|].
      assert (L1 : length lf = n) by (rewrite (proj1 Ff); exact LV). assert (L2 : length lf' = n) by (rewrite (proj1 Ff'), LV'; reflexivity).
      intros i Hi ix HL. rewrite (@fields_mir lf lf' i Rf L1 L2 Hi ix HL). unfold Rdiv. ring.
    - exists (fun _ _ => 0%R), (fun _ _ => 0%R). split; [discriminate|]. split; [discriminate|]. split; [intros i _ ix _; reflexivity|]. intros i Hi ix HL. ring. }
  destruct HF as (Fo & Fo' & HF & HF' & PF & RF).
  destruct (@implicit_explicit_part g o bs rho nu dt convect ds solve forcing v lc (fun i => pval (nth i lc dga)) Fo Hd Ho Hv Ec (fields_at_pval Fc) HF) as (star & Hst & Vst & E).
  destruct (@implicit_explicit_part g o bs rho nu dt convect' ds' solve' forcing' v' lc' (fun i => pval (nth i lc' dga)) Fo' Hd Ho Hv' Ec' (fields_at_pval Fc') HF') as (star' & Hst' & Vst' & E').
  assert (RS : vmir star star').
  { refine (@vmir_intro v v' star star' _ _ Hv Hv' (pv_len Hst) (pv_len Hst') _ _ _ _).
    - intros i Hi. split; [apply (pv_bc Hst Hi)|]. eapply prep_off; [apply (pv_off Hd Ho Hv Hi) | exact (Vst i Hi)].
    - intros i Hi. split; [apply (pv_bc Hst' Hi)|]. eapply prep_off; [apply (pv_off Hd Ho Hv' Hi) | exact (Vst' i Hi)].
    - intros i Hi ix HL. cbv beta. destruct (@fields_pval g v lc C i Fc ltac:(unfold n in *; lia)) as (_ & P). rewrite (P ix HL), (periodic_vval (proj1 Hv) Hi ix HL).
      destruct forcing; [rewrite (PF i Hi ix HL)|]; reflexivity.
    - assert (L1 : length lc = n) by (rewrite (proj1 Fc); exact LV). assert (L2 : length lc' = n) by (rewrite (proj1 Fc'), LV'; reflexivity).
      intros i Hi ix HL. cbv beta. rewrite (RV i Hi ix HL), (@fields_mir lc lc' i Rc L1 L2 Hi ix HL). pose proof (RF i Hi ix HL) as ER. cbv beta in ER. rewrite ER. ring. }
  destruct (@projection_mir solve solve' star star' Hsol Hsol' RS) as (vp & vp' & Ep & Ep' & RP).
  destruct (Hds vp (proj1 RP)) as (w & Ew & Dw). destruct (Hds' vp' (proj1 (proj2 RP))) as (w' & Ew' & Dw').
  exists w, w'. split; [rewrite E, Ep; exact Ew|]. split; [rewrite E', Ep'; exact Ew'|].
  exact (@diffusion_mir (dt * nu) vp vp' w w' Hpos RP Dw Dw').
Qed.
End Vel.

(* @prop C77 Projection commutes with mirrors, whatever exact pressure solvers are used on the two sides: the projection of the mirror image of a velocity is the mirror image of its projection. *)
Lemma projection_of_mirror_images_lem : forall g a k o bs solve solve' v v', (a < gndim g)%nat -> length o = gndim g -> solves_poisson g o solve -> solves_poisson g o solve' ->
  periodic_velocity g o bs v -> periodic_velocity g o bs v' -> mirrored_velocity (gndim g) a k v v' ->
  exists w w', projection solve v = Ok w /\ projection solve' v' = Ok w' /\ mirrored_velocity (gndim g) a k w w'.
Proof.
  intros g a k o bs solve solve' v v' Ha Ho Hsol Hsol' Hv Hv' R.
  destruct (@projection_mir g a k o bs Ha Ho solve solve' v v' Hsol Hsol') as (w & w' & E & E' & RW); [apply vmir_iff; auto|].
  exists w, w'. split; [exact E|]. split; [exact E'|]. apply (@vmir_iff g a k o bs w w'). exact RW.
Qed.

(* @prop C77 Convection of a velocity by itself commutes with mirrors: the convection of the mirror image is the mirror image of the convection, for linear, upwind and flux-limited convection with any limiter, and for the default convection of the Navier-Stokes solvers. *)
Lemma convection_of_mirror_images_lem : forall g a k o bs dt, (a < gndim g)%nat -> length o = gndim g ->
  mirror_alike g o bs a k (fun v => mapM (fun u => advect_linear u v dt) v) (fun v => mapM (fun u => advect_linear u v dt) v) /\
  mirror_alike g o bs a k (fun v => mapM (fun u => advect_upwind u v dt) v) (fun v => mapM (fun u => advect_upwind u v dt) v) /\
  (forall phi, mirror_alike g o bs a k (fun v => mapM (fun u => advect_general u v linear_fn (apply_tvd_limiter lax_wendroff phi) dt) v)
     (fun v => mapM (fun u => advect_general u v linear_fn (apply_tvd_limiter lax_wendroff phi) dt) v)) /\
  mirror_alike g o bs a k (default_convect dt) (default_convect dt).
Proof.
  intros g a k o bs dt Ha Ho. assert (Hd : (0 < gndim g)%nat) by lia.
  assert (Gen : forall adv, convects adv ->
    (forall v v' i, periodic_velocity g o bs v -> periodic_velocity g o bs v' -> mirrored_velocity (gndim g) a k v v' -> (i < gndim g)%nat ->
       exists w w', adv (nth i v dgv) v dt = Ok w /\ adv (nth i v' dgv) v' dt = Ok w' /\ mrel g a k (hd a i) (sg a i) (pval w) (pval w')) ->
    mirror_alike g o bs a k (fun v => mapM (fun u => adv u v dt) v) (fun v => mapM (fun u => adv u v dt) v)).
  { intros adv Hadv H v v' Hv Hv' R. destruct (@convect_all g o bs adv dt v Hadv Hd Hv) as (l & E & Fl & Vl). destruct (@convect_all g o bs adv dt v' Hadv Hd Hv') as (l' & E' & Fl' & Vl').
    exists l, l'. eexists _, _. split; [exact E|]. split; [exact E'|]. split; [exact Fl|]. split; [exact Fl'|].
    apply (proj2 (@vector_iff g a k (field_at l) (field_at l'))). intros i Hi. destruct (H v v' i Hv Hv' R Hi) as (x & x' & Ex & Ex' & Rx).
    rewrite (Vl i Hi) in Ex. rewrite (Vl' i Hi) in Ex'. injection Ex as <-. injection Ex' as <-. pose proof (pv_len Hv) as LV. pose proof (pv_len Hv') as LV'. pose proof (proj1 Fl) as L1. pose proof (proj1 Fl') as L2.
    unfold field_at. rewrite (nth_error_nth' l dga), (nth_error_nth' l' dga) by lia. exact Rx. }
  assert (Adv : forall v v' i, periodic_velocity g o bs v -> periodic_velocity g o bs v' -> mirrored_velocity (gndim g) a k v v' -> (i < gndim g)%nat ->
    (exists w w', advect_linear (nth i v dgv) v dt = Ok w /\ advect_linear (nth i v' dgv) v' dt = Ok w' /\ mrel g a k (hd a i) (sg a i) (pval w) (pval w')) /\
    (exists w w', advect_upwind (nth i v dgv) v dt = Ok w /\ advect_upwind (nth i v' dgv) v' dt = Ok w' /\ mrel g a k (hd a i) (sg a i) (pval w) (pval w')) /\
    (forall phi, exists w w', advect_general (nth i v dgv) v linear_fn (apply_tvd_limiter lax_wendroff phi) dt = Ok w /\
      advect_general (nth i v' dgv) v' linear_fn (apply_tvd_limiter lax_wendroff phi) dt = Ok w' /\ mrel g a k (hd a i) (sg a i) (pval w) (pval w'))).
  2: { split; [|split; [|split]].
    - apply (Gen _ convects_linear). intros v v' i A B C D. exact (proj1 (Adv v v' i A B C D)).
    - apply (Gen _ convects_upwind). intros v v' i A B C D. exact (proj1 (proj2 (Adv v v' i A B C D))).
    - intros phi. apply (Gen _ (convects_limited phi)). intros v v' i A B C D. exact (proj2 (proj2 (Adv v v' i A B C D)) phi).
    - apply (Gen _ (convects_limited van_leer_limiter)). intros v v' i A B C D. exact (proj2 (proj2 (Adv v v' i A B C D)) van_leer_limiter). }
  intros v v' i Hv Hv' R Hi. pose proof (proj1 (@vector_iff g a k (vval v) (vval v')) R) as RV.
  destruct (periodic_vec_nth (proj1 Hv) Hi) as (P1 & P3). destruct (periodic_vec_nth (proj1 Hv') Hi) as (P2 & P4).
  pose proof (@pv_off g o bs Hd Ho v i Hv Hi) as O1. pose proof (@pv_off g o bs Hd Ho v' i Hv' Hi) as O2.
  apply (@adv_mirror g a k o (nth i v dgv) (nth i v' dgv) v v' (hd a i) (sg a i) dt Ha Ho P1 P2 P3 P4).
  - eapply off_eq_trans; [exact O1 | apply off_eq_sym; exact O2].
  - rewrite (off_eq_nth a O1). rewrite half_offset by lia. unfold hd. destruct (i =? a)%nat; [change (inject_Z 1) with 1%Q | change (inject_Z 0) with 0%Q]; ring.
  - apply Hv.
  - apply Hv'.
  - apply Hv.
  - apply Hv'.
  - apply Hv.
  - apply Hv'.
  - unfold sg. destruct (i =? a)%nat; lra.
  - pose proof (RV i Hi) as RVi. pose proof (pv_len Hv) as LV. pose proof (pv_len Hv') as LV'. unfold vval in RVi. rewrite (nth_error_nth' v dgv), (nth_error_nth' v' dgv) in RVi by lia. exact RVi.
  - exact RV.
Qed.

(* @ex *)
Lemma projection_of_mirror_images_ex_lem : forall tpu eigh tpu' eigh', (0 < gndim p34g)%nat /\ length half2 = gndim p34g /\
  solves_poisson p34g half2 (fun v _ b => pressure_solve_fast_diag tpu eigh (1 / 1000) v (Some b) (Some Fft)) /\
  solves_poisson p34g half2 (fun v _ b => pressure_solve_fast_diag tpu' eigh' (1 / 1000) v (Some b) (Some Fft)) /\
  periodic_velocity p34g half2 [periodic_bc 2; periodic_bc 2] p34v /\ periodic_velocity p34g half2 [periodic_bc 2; periodic_bc 2] p34mirror /\ mirrored_velocity (gndim p34g) 0 2 p34v p34mirror.
Proof. intros. split; [cbn; lia|]. split; [reflexivity|]. split; [apply p34_solver|]. split; [apply p34_solver|]. split; [exact p34_pv|]. split; [exact p34mirror_pv | exact p34mirror_image]. Qed.
(* @ex *)
Lemma convection_of_mirror_images_ex_lem : (0 < gndim p34g)%nat /\ length half2 = gndim p34g /\
  periodic_velocity p34g half2 [periodic_bc 2; periodic_bc 2] p34v /\ periodic_velocity p34g half2 [periodic_bc 2; periodic_bc 2] p34mirror /\ mirrored_velocity (gndim p34g) 0 2 p34v p34mirror.
Proof. split; [cbn; lia|]. split; [reflexivity|]. split; [exact p34_pv|]. split; [exact p34mirror_pv | exact p34mirror_image]. Qed.
