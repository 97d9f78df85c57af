(** * Models with learned components keep the invariants of the solver around them (C62) *)
From Verif Require Import Prelude NdArr Grids_model Spec SpecDiff SpecNS SpecML LinAlg Cplx FastDiag_model Laplacian_model PressureSolve_model Boundaries_model BoundariesPeriodic FD_model Interp_model Pressure_model Advection_model ArrayUtils_model TimeStep_model Diffusion_model Equations_model PRep FDProofs FDProps InterpProps ArrayUtilsProps PressureProps PressureSolveProps AdvectionProofs AdvectionProps EquationsProps EquationsMoreProps Networks_model NetworksProps.
Set Implicit Arguments.
Local Open Scope Z_scope.

(** ** Learned interpolation in a conservative scheme *)
Lemma any_general g c v ui ci dt : (0 < gndim g)%nat -> periodic_field c -> ggrid (garray c) = g -> bhom (gbc c) = true ->
  periodic_vec g v -> homogeneous_vec v -> any_interpolation g ui -> any_interpolation g ci ->
  exists w F, advect_general c v ui ci dt = Ok w /\ prep g (goff (garray c)) F w /\ asum (gshape g) F = 0%R.
Proof.
  intros Hd Hc Hg Hbc Hv Hh Hui Hci. pose proof (pf_wfg Hc) as Hw. rewrite Hg in Hw. pose proof (pf_off Hc) as Ho. rewrite Hg in Ho. set (o := goff (garray c)) in *.
  set (os := fun i => nth i (cv_offsets o) []). pose proof Hv as (HLv & _).
  assert (OL : forall i, (i < gndim g)%nat -> length (os i) = gndim g) by (intros i Hi; unfold os; rewrite cv_nth_length; lia).
  unfold advect_general. rewrite (has_all_periodic_pf Hc). cbn [negb]. fold o.
  destruct (@mapM_combine gvar (list Q) gvar (fun ut => ui (fst ut) (snd ut) v dt)
    (fun i w => gbc w = gbc (nth i v dgv) /\ exists F, prep g (os i) F (garray w)) v (cv_offsets o) dgv []) as (av & Eav & HLav & Hav).
  { rewrite cv_length. lia. }
  { intros i Hi. cbn [fst snd]. fold (os i). assert (Hi' : (i < gndim g)%nat) by lia.
    destruct (periodic_vec_nth Hv Hi') as (Hp & Hpg). unfold homogeneous_vec in Hh. rewrite Forall_forall in Hh.
    destruct (Hui (nth i v dgv) (os i) v dt Hp Hpg) as (w & F & E & B & P); [apply Hh; apply nth_In; lia | apply OL; exact Hi'|]. exists w. eauto. }
  rewrite Eav. cbn [bind].
  assert (Hl : cv_offsets o = map os (seq 0 (gndim g))).
  { apply nth_ext with (d := []) (d' := os 0%nat); [rewrite cv_length, map_length, seq_length; auto|].
    intros n Hn. rewrite cv_length in Hn. rewrite nth_map_seq by lia. reflexivity. }
  destruct (@mapM_seq gvar (fun i => ci c (os i) av dt) (fun i w => exists F, prep g (os i) F (garray w)) (gndim g)) as (ac & Eac & HLac & Hac).
  { intros i Hi. destruct (Hci c (os i) av dt Hc Hg Hbc (OL i Hi)) as (w & F & E & B & P). exists w. eauto. }
  assert (Em : mapM (fun t => ci c t av dt) (cv_offsets o) = Ok ac).
  { rewrite Hl. rewrite <- Eac. clear. generalize (seq 0 (gndim g)). induction l; simpl; [reflexivity|]. rewrite IHl. reflexivity. }
  rewrite Em. cbn [bind].
  set (val := fun (l : list gvar) i => wrapF g (get (gdata (garray (nth i l dgv))))).
  assert (PV : forall l i, (exists F, prep g (os i) F (garray (nth i l dgv))) -> prep g (os i) (val l i) (garray (nth i l dgv))).
  { intros l i (F & A & B & C & D). apply wrapF_prep. split; [exact A|]. split; [exact B|]. split; [exact C|]. reflexivity. }
  destruct (@aligned_prep g o os (val av) (val ac) ac av Hw Hd) as (w & E & P); [auto | lia | |].
  - intros i Hi. destruct (Hav i dgv ltac:(lia)) as (Eb & Fv). destruct (periodic_vec_nth Hv Hi) as (Hp & Hpg). split; [split; [apply PV; exact Fv | rewrite Eb; rewrite <- Hpg; apply (proj2 Hp)]|]. split.
    { rewrite Eb. unfold homogeneous_vec in Hh. rewrite Forall_forall in Hh. apply Hh. apply nth_In. lia. }
    split; [apply PV; apply Hac; exact Hi|]. split; [apply OL; auto|]. split.
    { eapply off_eq_trans; [apply off_eq_offs; [apply cv_nth; lia | reflexivity]|]. apply offs_half_back. }
    split; apply wrapF_periodic.
  - exists w. eexists. split; [exact E|]. split; [exact P|]. rewrite asum_opp, sum_divF; [ring | apply Hw | intros i Hi; apply periodic_mult; apply wrapF_periodic].
Qed.
(* @prop C62 self_advection with any two learned interpolations: as long as they return values at the offsets they are asked for, the convection term exists for every staggered periodic velocity, has one field per component at that component's offset, and the total of every component is zero: learned advection cannot create momentum, whatever values the networks produce. *)
Lemma learned_advection_conserves_lem : forall g o bs ui ci dt v, (0 < gndim g)%nat -> periodic_velocity g o bs v ->
  any_interpolation g ui -> any_interpolation g ci ->
  exists l F, self_advection ui ci dt v = Ok l /\ fields_at g v l F /\ forall i x, nth_error l i = Some x -> total (gdata x) = 0%R.
Proof.
  intros g o bs ui ci dt v Hd Hv Hui Hci. pose proof (pv_len Hv) as HL. destruct Hv as (Hv & Hh & _).
  destruct (@mapM_enum gvar garr (fun iu => advect_general (snd iu) v ui ci dt)
    (fun i w => exists F, prep g (goff (garray (nth i v dgv))) F w /\ asum (gshape g) F = 0%R) v dgv) as (l & E & Ll & Hl).
  { intros i Hi. cbn [snd]. destruct (periodic_vec_nth Hv (i := i) ltac:(lia)) as (Hp & Hg). 
    destruct (@any_general g (nth i v dgv) v ui ci dt Hd Hp Hg) as (w & F & Ew & P & S); auto.
    - unfold homogeneous_vec in Hh. rewrite Forall_forall in Hh. apply Hh. apply nth_In. lia.
    - exists w. eauto. }
  rewrite (mapM_enum_snd (fun u => advect_general u v ui ci dt) v) in E. exists l, (fun i => get (gdata (nth i l dga))). split; [exact E|]. split.
  - apply fields_at_intro; [exact Ll|]. intros i Hi. destruct (Hl i dga Hi) as (F & (A & B & C & D) & _). split; [exact A|]. split; [exact B|]. split; [exact C|]. reflexivity.
  - intros i x Hx. assert (Hi : (i < length v)%nat) by (rewrite <- Ll; apply nth_error_Some; congruence). destruct (Hl i dga Hi) as (F & P & S). rewrite (nth_error_nth _ _ _ Hx) in P. rewrite (total_is P). exact S.
Qed.

(* an interpolation that returns nonsense, at the right place *)
Definition nonsense_interp : interp_fn := fun c o v dt => Ok (mkgv (mkga (amap (fun x => x ^ 2 + 7)%R (gdata (garray c))) o (ggrid (garray c))) (gbc c)).
Lemma nonsense_any g : any_interpolation g nonsense_interp.
Proof.
  intros c o v dt Hp Hg _ _. eexists. eexists. split; [reflexivity|]. cbn [gbc garray]. split; [reflexivity|]. split; [exact Hg|]. split; [apply off_eq_refl|]. cbn [gdata].
  split; [cbn; destruct Hp as ((_ & S & _) & _); rewrite S, Hg; reflexivity | intros ix _; reflexivity].
Qed.
(* @ex *)
Lemma learned_advection_conserves_ex_lem : (0 < gndim p34g)%nat /\ periodic_velocity p34g half2 [periodic_bc 2; periodic_bc 2] p34v /\ any_interpolation p34g nonsense_interp.
Proof. split; [cbn; lia|]. split; [exact p34_pv | apply nonsense_any]. Qed.

(** ** Sums of forces *)
Lemma ml_sum_term g o bs fs : (0 < length fs)%nat -> (forall f, In f fs -> any_term g o bs f) -> any_term g o bs (ml_sum_forcings fs).
Proof.
  intros Hn Hf w Hw. unfold ml_sum_forcings.
  destruct (@mapM_F2 _ _ (fun f => f w) (fun f l => f w = Ok l /\ exists F, fields_at g w l F) fs) as (ls & El & Hl).
  { intros f Hin. destruct (Hf f Hin w Hw) as (l & F & E & P). exists l. eauto. }
  rewrite El. cbn [bind]. pose proof (F2_length Hl) as LL.
  destruct (@sum_fields_pointwise_lem g w ls (fun k i => get (gdata (nth i (nth k ls []) dga)))) as (l & E & P); [lia | |].
  - intros k l Hk. destruct (nth_error fs k) as [f|] eqn:Ef; [|apply nth_error_None in Ef; assert (k < length ls)%nat by (apply nth_error_Some; congruence); lia].
    destruct (@F2_nth _ _ _ _ _ _ _ _ Hl Ef Hk) as (_ & F & A & B). rewrite (nth_error_nth _ _ _ Hk). split; [exact A|]. intros i u x Hu Hx. destruct (B i u x Hu Hx) as (P1 & P2 & P3 & P4).
    rewrite (nth_error_nth _ _ _ Hx). split; [exact P1|]. split; [exact P2|]. split; [exact P3|]. reflexivity.
  - eexists. eexists. split; [exact E | exact P].
Qed.
Lemma ml_sum_no_force g o bs fs : (0 < length fs)%nat -> (forall f, In f fs -> any_term g o bs f) -> (forall f, In f fs -> no_net_force g o bs f) -> no_net_force g o bs (ml_sum_forcings fs).
Proof.
  intros Hn Hf Hz w l0 i x Hw E0 Hx. unfold ml_sum_forcings in E0.
  destruct (@mapM_F2 _ _ (fun f => f w) (fun f l => f w = Ok l /\ exists F, fields_at g w l F) fs) as (ls & El & Hl).
  { intros f Hin. destruct (Hf f Hin w Hw) as (l & F & E & P). exists l. eauto. }
  rewrite El in E0. cbn [bind] in E0. pose proof (F2_length Hl) as LL.
  destruct (@sum_fields_pointwise_lem g w ls (fun k i => get (gdata (nth i (nth k ls []) dga)))) as (l & E & P); [lia | |].
  - intros k l Hk. destruct (nth_error fs k) as [f|] eqn:Ef; [|apply nth_error_None in Ef; assert (k < length ls)%nat by (apply nth_error_Some; congruence); lia].
    destruct (@F2_nth _ _ _ _ _ _ _ _ Hl Ef Hk) as (_ & F & A & B). rewrite (nth_error_nth _ _ _ Hk). split; [exact A|]. intros j u y Hu Hy. destruct (B j u y Hu Hy) as (P1 & P2 & P3 & P4).
    rewrite (nth_error_nth _ _ _ Hy). split; [exact P1|]. split; [exact P2|]. split; [exact P3|]. reflexivity.
  - rewrite E in E0. injection E0 as <-. destruct P as (PL & P). 
    assert (Hi : (i < length w)%nat) by (rewrite <- PL; apply nth_error_Some; congruence). destruct (nth_error w i) as [u|] eqn:Eu; [|apply nth_error_None in Eu; lia].
    rewrite (total_is (P i u x Eu Hx)), asum_nsum. transitivity (nsum (length ls) (fun _ => 0%R)); [|rewrite nsum_const; ring]. apply nsum_ext. intros k Hk.
    destruct (nth_error ls k) as [lk|] eqn:Ek; [|apply nth_error_None in Ek; lia]. destruct (nth_error fs k) as [f|] eqn:Ef; [|apply nth_error_None in Ef; lia].
    destruct (@F2_nth _ _ _ _ _ _ _ _ Hl Ef Ek) as (Efw & F & A & B). rewrite (nth_error_nth _ _ _ Ek). 
    destruct (nth_error lk i) as [y|] eqn:Ey; [|apply nth_error_None in Ey; lia]. rewrite (nth_error_nth _ _ _ Ey).
    rewrite <- (Hz f ltac:(eapply nth_error_In; exact Ef) w lk i y Hw Efw Ey). destruct (B i u y Eu Ey) as (P1 & P2 & P3 & P4). unfold total. rewrite P3. reflexivity.
Qed.

(** ** The modular step *)
Lemma explicit_any g o bs density viscosity convect forcing v : (0 < gndim g)%nat -> length o = gndim g -> periodic_velocity g o bs v ->
  (viscosity <> None -> density <> 0%R) -> any_term g o bs convect -> any_term g o bs forcing ->
  exists l, navier_stokes_explicit_terms density viscosity convect diffuse (Some forcing) v = Ok l /\ periodic_velocity g o bs l /\
    (no_net_force g o bs convect -> no_net_force g o bs forcing -> forall i, momentum l i = 0%R).
Proof.
  intros Hd Ho Hv Hden HC HF. destruct (HC v Hv) as (lc & C & Ec & Hc). destruct (HF v Hv) as (lf & Fo & Ef & Hf). pose proof (pv_len Hv) as HL. pose proof (pv_wfg Hd Hv) as Hw.
  assert (HF' : forall f, Some forcing = Some f -> exists lf, f v = Ok lf /\ fields_at g v lf Fo) by (intros f E; injection E as <-; eauto).
  assert (Hbt : forall i, (i < gndim g)%nat -> length (btypes (gbc (nth i v dgv))) = gndim g).
  { intros i Hi. destruct Hv as (Hv & _). destruct (periodic_vec_nth Hv Hi) as ((_ & Hb) & Hg). rewrite Hb, Hg. apply repeat_length. }
  set (D := fun i ix => match viscosity with Some nu => (nu / density) * lapF g (vval v i) ix | None => 0 end%R).
  destruct (@explicit_prep g density viscosity convect diffuse (Some forcing) v lc C D Fo) as (l & E & HLl & H); auto.
  { intros i Hi. apply Hbt. lia. }
  { intros nu i En Hi. subst viscosity. unfold D. apply (@diffuse_prep g o bs); auto. lia. }
  exists l. split; [exact E|]. split.
  - apply (@pv_intro g o bs Hd Ho v l (fun i ix => C i ix + opt_term viscosity (D i ix) + opt_term (Some forcing) (Fo i ix / density))%R Hv); [lia|]. intros i Hi. destruct (H i ltac:(lia)) as (B & P). split; [rewrite B; apply (pv_bc Hv Hi)|].
    eapply prep_off; [exact (pv_off Hd Ho Hv Hi) | exact P].
  - intros ZC ZF i. destruct (Nat.lt_ge_cases i (gndim g)) as [Hi|Hi]; [|apply momentum_out; lia]. rewrite momentum_nth by lia. destruct (H i ltac:(lia)) as (_ & P). rewrite (total_is P), !asum_plus.
    assert (SD : asum (gshape g) (fun ix => opt_term viscosity (D i ix)) = 0%R).
    { unfold D. destruct viscosity as [nu|]; cbn [opt_term]; [|apply asum_0].
      rewrite asum_scal, sum_lapF; [ring | apply Hw|]. destruct Hv as (Hv & _). apply (periodic_vval Hv Hi). }
    assert (Hi' : (i < length v)%nat) by lia. assert (Hlc : (i < length lc)%nat) by (rewrite (proj1 Hc); exact Hi'). assert (Hlf : (i < length lf)%nat) by (rewrite (proj1 Hf); exact Hi').
    rewrite SD. cbn [opt_term]. unfold Rdiv. rewrite asum_scal_r. rewrite <- (total_is (fields_at_nth Hf Hi')), <- (total_is (fields_at_nth Hc Hi')).
    rewrite (ZC v lc i _ Hv Ec (nth_error_nth' _ dga Hlc)), (ZF v lf i _ Hv Ef (nth_error_nth' _ dga Hlf)). ring.
Qed.
Lemma modular_forcing_term g o bs f (acc : list (list gvar -> list gvar -> result (list garr))) v : any_term g o bs f -> (forall m, In m acc -> any_term g o bs (m v)) -> any_term g o bs (ml_sum_forcings (f :: map (fun m => m v) acc)).
Proof. intros Hf Ha. apply ml_sum_term; [cbn; lia|]. intros h [<- | Hh]; [exact Hf|]. apply in_map_iff in Hh. destruct Hh as (m & <- & Hm). apply Ha. exact Hm. Qed.
Lemma modular_forcing_zero g o bs f (acc : list (list gvar -> list gvar -> result (list garr))) v : any_term g o bs f -> (forall m, In m acc -> any_term g o bs (m v)) -> no_net_force g o bs f -> (forall m, In m acc -> no_net_force g o bs (m v)) ->
  no_net_force g o bs (ml_sum_forcings (f :: map (fun m => m v) acc)).
Proof.
  intros Hf Ha Zf Za. apply ml_sum_no_force; [cbn; lia | |].
  - intros h [<- | Hh]; [exact Hf|]. apply in_map_iff in Hh. destruct Hh as (m & <- & Hm). apply Ha. exact Hm.
  - intros h [<- | Hh]; [exact Zf|]. apply in_map_iff in Hh. destruct Hh as (m & <- & Hm). apply Za. exact Hm.
Qed.
(* @prop C62 modular_navier_stokes_model on top of the semi-implicit solver, with any learned convection, forcing and acceleration modules (the modules may depend on the state in any way; they only have to return one field per component at that component's offset), any explicit Runge-Kutta tableau, viscosity, density and time step: if the pressure module solves its Poisson equation, the step succeeds on every staggered periodic velocity and the new velocity has zero divergence in every cell; and if no module exerts a net force, the total of every component is conserved. *)
Lemma modular_semi_implicit_lem : forall t g o bs density viscosity dt solve forcing convection accelerations v,
  (0 < gndim g)%nat -> length o = gndim g -> explicit_tableau t -> (viscosity <> None -> density <> 0%R) ->
  solves_poisson g o solve -> periodic_velocity g o bs v ->
  any_term g o bs (convection v) -> any_term g o bs forcing -> (forall m, In m accelerations -> any_term g o bs (m v)) ->
  exists v' d, modular_navier_stokes_model (fun convect f => semi_implicit_navier_stokes t density viscosity dt convect diffuse solve f) forcing convection accelerations v = Ok v' /\
    periodic_velocity g o bs v' /\ divergence v' = Ok d /\ is_field d g o (fun _ => 0%R) /\
    (no_net_force g o bs (convection v) -> no_net_force g o bs forcing -> (forall m, In m accelerations -> no_net_force g o bs (m v)) ->
     forall i, momentum v' i = momentum v i).
Proof.
  intros t g o bs density viscosity dt solve f conv acc v Hd Ho Ht Hden Hs Hv HC HF HA. unfold modular_navier_stokes_model, semi_implicit_navier_stokes.
  pose proof (solves_is_solver Hs) as Hs'. pose proof (@modular_forcing_term g o bs f acc v HF HA) as HT. set (fs := ml_sum_forcings (f :: map (fun m => m v) acc)) in *.
  set (Fn := navier_stokes_explicit_terms density viscosity (conv v) diffuse (Some fs)).
  assert (HP : forall w, periodic_velocity g o bs w -> exists w', projection solve w = Ok w' /\ periodic_velocity g o bs w') by (intros w Hw; destruct (@projection_pv g o bs Hd Ho solve w Hw Hs') as (w' & Ew & Hw' & _); eauto).
  destruct (@vel_rk_pv g o bs Hd Ho 0 t Fn (projection solve) dt v Ht) as (u & E & Hu & _).
  - intros w Hw. destruct (@explicit_any g o bs density viscosity (conv v) fs w Hd Ho Hw Hden HC HT) as (l & El & Hl & _).
    exists l. split; [exact El|]. split; [exact Hl|]. intros i. ring.
  - exact HP.
  - exact Hv.
  - destruct (@projection_pv g o bs Hd Ho solve u Hu Hs') as (w' & Ew & Hw' & Hmw).
    destruct (@projection_div g o bs Hd Ho solve u Hu Hs) as (w2 & d & Ew2 & Ed & Z). rewrite Ew in Ew2. injection Ew2 as <-. exists w', d. split; [rewrite E; exact Ew|]. split; [exact Hw'|]. split; [exact Ed|]. split; [exact Z|].
    intros Z1 Z2 Z3 i. pose proof (@modular_forcing_zero g o bs f acc v HF HA Z2 Z3) as Z4. fold fs in Z4.
    destruct (@vel_rk_pv g o bs Hd Ho 1 t Fn (projection solve) dt v Ht) as (u2 & E2 & Hu2 & Hm).
    + intros w Hw. destruct (@explicit_any g o bs density viscosity (conv v) fs w Hd Ho Hw Hden HC HT) as (l & El & Hl & Hml).
      exists l. split; [exact El|]. split; [exact Hl|]. intros j. rewrite (Hml Z1 Z4 j). ring.
    + exact HP.
    + exact Hv.
    + destruct (@projection_pv g o bs Hd Ho solve u2 Hu2 Hs') as (w3 & Ew3 & _ & Hm3). rewrite E in E2. rewrite Ew, Ew3 in E2. injection E2 as ->. rewrite Hm3. specialize (Hm i). lra.
Qed.
(* @prop C62 The same for modular_navier_stokes_model on top of its default solver, implicit diffusion, when the diffusion solver solves its equation with viscosity * dt >= 0. *)
Lemma modular_implicit_lem : forall g o bs density viscosity dt diffusion_solve solve forcing convection accelerations v,
  (0 < gndim g)%nat -> length o = gndim g -> solves_poisson g o solve -> periodic_velocity g o bs v -> (0 <= dt * viscosity)%R ->
  (forall u, periodic_velocity g o bs u -> exists u', diffusion_solve u viscosity dt = Ok u' /\ Forall2 (implicitly_diffused (dt * viscosity)) u u') ->
  any_term g o bs (convection v) -> any_term g o bs forcing -> (forall m, In m accelerations -> any_term g o bs (m v)) ->
  exists v' d, modular_navier_stokes_model (fun convect f => implicit_diffusion_navier_stokes density viscosity dt convect diffusion_solve solve f) forcing convection accelerations v = Ok v' /\
    periodic_velocity g o bs v' /\ divergence v' = Ok d /\ is_field d g o (fun _ => 0%R) /\
    (no_net_force g o bs (convection v) -> no_net_force g o bs forcing -> (forall m, In m accelerations -> no_net_force g o bs (m v)) ->
     forall i, momentum v' i = momentum v i).
Proof.
  intros g o bs density viscosity dt ds solve f conv acc v Hd Ho Hs Hv Hc0 HD HC HF HA. unfold modular_navier_stokes_model. pose proof (pv_wfg Hd Hv) as Hw.
  pose proof (@modular_forcing_term g o bs f acc v HF HA) as HT. set (fs := ml_sum_forcings (f :: map (fun m => m v) acc)) in *.
  destruct (HC v Hv) as (lc & C & Ec & Hc). destruct (HT v Hv) as (lf & Fo & Ef & Hf).
  destruct (@implicit_explicit_part g o bs density viscosity dt (conv v) ds solve (Some fs) v lc C Fo Hd Ho Hv Ec Hc) as (star & Hst & Vst & E); [intros h Eh; injection Eh as <-; eauto|].
  destruct (@projection_pv g o bs Hd Ho solve star Hst (solves_is_solver Hs)) as (vp & Ep & Hvp & Mp).
  destruct (@projection_div g o bs Hd Ho solve star Hst Hs) as (vp2 & dp & Ep2 & Edp & Zdp). rewrite Ep in Ep2. injection Ep2 as <-.
  destruct (HD vp Hvp) as (v' & Ev & H2). destruct (@diffused_pv g o bs Hd Ho _ _ _ Hvp H2) as (Hv' & Eq).
  destruct (@div_pv g o bs Hd Ho v' Hv') as (d & Ed & (D1 & D2 & D3 & D4)). destruct (@div_pv g o bs Hd Ho vp Hvp) as (dp' & Edp' & (_ & _ & _ & P4)). rewrite Edp in Edp'. injection Edp' as <-.
  exists v', d. split; [rewrite E, Ep; exact Ev|]. split; [exact Hv'|]. split; [exact Ed|]. split.
  - split; [exact D1|]. split; [exact D2|]. split; [exact D3|].
    intros ix Hix. rewrite D4 by exact Hix. apply (@helmholtz_zero g (dt * viscosity) (divF g (vval v'))); auto.
    + apply Hw.
    + apply periodic_divF. intros i Hi. apply (periodic_vval (proj1 Hv') Hi).
    + clear ix Hix. intros ix Hix. rewrite <- divF_lapF.
      transitivity (divF g (vval vp) ix); [|rewrite <- P4 by exact Hix; apply Zdp; exact Hix].
      unfold divF. rewrite <- nsum_scal, <- nsum_minus. apply nsum_ext. intros i Hi. rewrite <- bdF_lin. unfold bdF.
      pose proof (inb_length _ _ Hix) as HLx. rewrite !Eq by (auto; rewrite shiftix_length; exact HLx). reflexivity.
  - intros Z1 Z2 Z3 i. pose proof (@modular_forcing_zero g o bs f acc v HF HA Z2 Z3) as Z4. fold fs in Z4.
    destruct (Nat.lt_ge_cases i (gndim g)) as [Hi|Hi].
    + transitivity (momentum vp i).
      * rewrite (momentum_pv Hd Ho Hv' Hi), (momentum_pv Hd Ho Hvp Hi).
        rewrite (@asum_ext (gshape g) (vval vp i) (fun ix => vval v' i ix - (dt * viscosity) * lapF g (vval v' i) ix)%R) by (intros ix Hix; symmetry; apply Eq; [exact Hi | exact (inb_length _ _ Hix)]).
        rewrite asum_minus, asum_scal, sum_lapF; [ring | apply Hw | apply (periodic_vval (proj1 Hv') Hi)].
      * rewrite Mp. rewrite momentum_nth by (rewrite (pv_len Hst); exact Hi). rewrite (total_is (Vst i Hi)), (momentum_pv Hd Ho Hv Hi).
        assert (Hi' : (i < length v)%nat) by (rewrite (pv_len Hv); exact Hi). assert (Hlc : (i < length lc)%nat) by (rewrite (proj1 Hc); exact Hi'). assert (Hlf : (i < length lf)%nat) by (rewrite (proj1 Hf); exact Hi').
        rewrite asum_plus, asum_scal, asum_plus. unfold Rdiv. rewrite asum_scal_r. rewrite <- (total_is (fields_at_nth Hf Hi')), <- (total_is (fields_at_nth Hc Hi')).
        rewrite (Z1 v lc i _ Hv Ec (nth_error_nth' _ dga Hlc)), (Z4 v lf i _ Hv Ef (nth_error_nth' _ dga Hlf)). ring.
    + rewrite !momentum_out by (rewrite ?(pv_len Hv'), ?(pv_len Hv); exact Hi). reflexivity.
Qed.

Definition p34bs := [periodic_bc 2; periodic_bc 2].
Lemma nonsense_advection : any_term p34g half2 p34bs (self_advection nonsense_interp nonsense_interp 1) /\ no_net_force p34g half2 p34bs (self_advection nonsense_interp nonsense_interp 1).
Proof.
  assert (Hd : (0 < gndim p34g)%nat) by (cbn; lia). split.
  - intros w Hw. destruct (@learned_advection_conserves_lem p34g half2 p34bs nonsense_interp nonsense_interp 1 w Hd Hw) as (l & F & E & P & _); [apply nonsense_any | apply nonsense_any|]. eauto.
  - intros w l i x Hw E Hx. destruct (@learned_advection_conserves_lem p34g half2 p34bs nonsense_interp nonsense_interp 1 w Hd Hw) as (l' & F & E' & P & Z); [apply nonsense_any | apply nonsense_any|]. rewrite E in E'. injection E' as <-. eauto.
Qed.
(* @ex *)
Lemma modular_semi_implicit_ex_lem : forall tpu eigh,
  (0 < gndim p34g)%nat /\ length half2 = gndim p34g /\ explicit_tableau (mktab [[1 / 2]; [0; 1 / 2]; [0; 0; 1]] [1 / 6; 1 / 3; 1 / 3; 1 / 6])%R /\
  solves_poisson p34g half2 (fun v _ b => pressure_solve_fast_diag tpu eigh (1 / 1000) v (Some b) (Some Fft)) /\
  periodic_velocity p34g half2 p34bs p34v /\ any_term p34g half2 p34bs (self_advection nonsense_interp nonsense_interp 1) /\ no_net_force p34g half2 p34bs (self_advection nonsense_interp nonsense_interp 1) /\
  any_term p34g half2 p34bs push.
Proof.
  intros tpu eigh. split; [cbn; lia|]. split; [reflexivity|]. split; [exact rk4_explicit|]. split; [exact (p34_solver tpu eigh)|]. split; [exact p34_pv|]. split; [apply nonsense_advection|]. split; [apply nonsense_advection|]. intros w Hw. exact (push_fields Hw).
Qed.
(* @ex *)
Lemma modular_implicit_ex_lem : forall tpu eigh,
  (0 < gndim p34g)%nat /\ length half2 = gndim p34g /\
  solves_poisson p34g half2 (fun v _ b => pressure_solve_fast_diag tpu eigh (1 / 1000) v (Some b) (Some Fft)) /\
  periodic_velocity p34g half2 p34bs p34v /\ (0 <= 1 * 3)%R /\
  (forall u, periodic_velocity p34g half2 p34bs u -> exists u', p34_ds tpu eigh u 3 1 = Ok u' /\ Forall2 (implicitly_diffused (1 * 3)) u u') /\
  any_term p34g half2 p34bs (self_advection nonsense_interp nonsense_interp 1) /\ no_net_force p34g half2 p34bs (self_advection nonsense_interp nonsense_interp 1) /\
  any_term p34g half2 p34bs push.
Proof.
  intros tpu eigh. split; [cbn; lia|]. split; [reflexivity|]. split; [exact (p34_solver tpu eigh)|]. split; [exact p34_pv|]. split; [lra|]. split; [apply p34_diff; lra|]. split; [apply nonsense_advection|]. split; [apply nonsense_advection|]. intros w Hw. exact (push_fields Hw).
Qed.

(** ** Learned correctors *)
Lemma vel_add_vals g o bs a b : (0 < gndim g)%nat -> length o = gndim g -> periodic_velocity g o bs a -> periodic_velocity g o bs b -> exists c, vel_add a b = Ok c /\ periodic_velocity g o bs c /\
  forall i ix, (i < gndim g)%nat -> inb (gshape g) ix -> vval c i ix = (vval a i ix + vval b i ix)%R.
Proof.
  intros Hd Ho Ha Hb. unfold vel_add. rewrite (same_vars_pv Hd Ho Ha Hb). pose proof (pv_len Ha) as La. pose proof (pv_len Hb) as Lb.
  destruct (@mapM_combine gvar gvar gvar (fun ab => let* s := tree_add2 (garray (fst ab)) (garray (snd ab)) in Ok (mkgv s (gbc (fst ab))))
    (fun i w => gbc w = nth i bs (gbc dgv) /\ prep g (offs i (1 # 2) o) (fun ix => vval a i ix + vval b i ix)%R (garray w)) a b dgv dgv) as (c & E & HL & Hc); [lia | |].
  { intros i Hi. assert (Hi' : (i < gndim g)%nat) by lia. cbn [fst snd]. destruct (tree_add2_prep (pv_prep Hd Ho Ha Hi') (pv_prep Hd Ho Hb Hi')) as (w & Ew & Hw).
    rewrite Ew. cbn [bind]. eexists; split; [reflexivity|]. split; [apply (pv_bc Ha Hi') | exact Hw]. }
  assert (Hpv : periodic_velocity g o bs c) by (apply (@pv_intro g o bs Hd Ho a c (fun i ix => vval a i ix + vval b i ix)%R Ha); [lia|]; intros i Hi; apply Hc; lia).
  exists c. split; [exact E|]. split; [exact Hpv|]. intros i ix Hi Hix. destruct (Hc i dgv ltac:(lia)) as (_ & (_ & _ & _ & P)). destruct (pv_prep Hd Ho Hpv Hi) as (_ & _ & _ & P'). rewrite <- P, <- P' by exact Hix. reflexivity.
Qed.
Lemma face_offset g i : (i < gndim g)%nat -> off_eq (nth i (cell_faces g) []) (offs i (1 # 2) (cell_center g)).
Proof.
  intros Hi. apply off_eq_intro; [rewrite offs_length, cell_center_length; apply face_length; exact Hi|].
  rewrite face_length by exact Hi. intros j Hj. rewrite face_nth by auto. unfold offs. destruct (Nat.eq_dec j i) as [->|Hne].
  - rewrite nth_upd_same by (rewrite cell_center_length; exact Hi). unfold cell_center. rewrite nth_repeat' by exact Hi. rewrite Nat.eqb_refl. reflexivity.
  - rewrite nth_upd_other by auto. unfold cell_center. rewrite nth_repeat' by exact Hj. destruct (Nat.eqb_spec i j); [congruence | reflexivity].
Qed.
Lemma faces_pv g l v F : (0 < gndim g)%nat -> periodic_velocity g (cell_center g) (repeat (periodic_bc (gndim g)) (gndim g)) v -> length l = gndim g ->
  (forall i u, nth_error l i = Some u -> gbc u = periodic_bc (gndim g) /\ is_field (garray u) g (nth i (cell_faces g) []) (F i)) ->
  periodic_velocity g (cell_center g) (repeat (periodic_bc (gndim g)) (gndim g)) l.
Proof.
  intros Hd Hv HL H. apply (@pv_intro g (cell_center g) (repeat (periodic_bc (gndim g)) (gndim g)) Hd (cell_center_length g) v l F Hv HL).
  intros i Hi. destruct (nth_error l i) as [u|] eqn:Eu; [|apply nth_error_None in Eu; lia]. rewrite (nth_error_nth _ _ _ Eu). destruct (H i u Eu) as (B & P).
  split; [rewrite B, nth_repeat' by exact Hi; reflexivity|]. eapply prep_off; [apply face_offset; exact Hi | exact P].
Qed.
(* @prop C62 learned_corrector, learned_corrector_v2 and learned_corrector_v3 around any base solver, with a flux_corrector_network as the corrector: for every network and every time step, whenever the base step returns a staggered periodic velocity, the corrected step returns one too, and the total of every component is exactly that of the base step: the learned correction cannot add or remove momentum. *)
Lemma learned_correctors_keep_momentum_lem : forall g dt base tower pre v next, (0 < gndim g)%nat -> any_network g tower ->
  base v = Ok next -> periodic_velocity g (cell_center g) (repeat (periodic_bc (gndim g)) (gndim g)) next ->
  let keeps (r : result (list gvar)) := exists v', r = Ok v' /\ periodic_velocity g (cell_center g) (repeat (periodic_bc (gndim g)) (gndim g)) v' /\ forall i, momentum v' i = momentum next i in
  ((exists x c, pre next = Ok x /\ shp x = gshape g ++ [c]) -> keeps (learned_corrector base (flux_corrector_network g tower pre) v)) /\
  ((exists x c, pre v = Ok x /\ shp x = gshape g ++ [c]) -> keeps (learned_corrector_v2 dt base (flux_corrector_network g tower pre) v)) /\
  ((exists x c, pre (v ++ next) = Ok x /\ shp x = gshape g ++ [c]) -> keeps (learned_corrector_v3 dt base (flux_corrector_network g tower pre) v)).
Proof.
  intros g dt base tower pre v next Hd Hn Eb Hv keeps. pose proof (pv_wfg Hd Hv) as Hw.
  assert (C : forall s, (exists x c, pre s = Ok x /\ shp x = gshape g ++ [c]) -> exists c, flux_corrector_network g tower pre s = Ok c /\ periodic_velocity g (cell_center g) (repeat (periodic_bc (gndim g)) (gndim g)) c /\ forall i, momentum c i = 0%R).
  { intros s (x & cc & Ex & Sx). destruct (Hn (gndim g * gndim g)%nat cc x Sx) as (y & Ey & Sy). destruct (@flux_corrector_conserves_lem g tower pre s x y Hw Hd Ex Ey Sy) as (l & El & Ll & Hl). exists l. split; [exact El|]. split.
    - eapply faces_pv; [exact Hd | exact Hv | exact Ll|]. intros i u Hu. destruct (Hl i u Hu) as (B & _ & P). split; [exact B | exact P].
    - intros i. unfold momentum. destruct (nth_error l i) as [u|] eqn:Eu; [|reflexivity]. apply (Hl i u Eu). }
  pose proof (cell_center_length g) as Ho. unfold keeps, learned_corrector, learned_corrector_v2, learned_corrector_v3. rewrite Eb. cbn [bind]. split; [|split]; intros Hx; destruct (C _ Hx) as (c & Ec & Hc & Zc); rewrite Ec; cbn [bind].
  - destruct (@vel_add_pv g _ _ Hd Ho next c Hv Hc) as (v' & E & Hv' & M). exists v'. split; [exact E|]. split; [exact Hv'|]. intros i. rewrite M, Zc. ring.
  - destruct (@vel_scal_pv g _ _ Hd Ho dt c Hc) as (Hs & Ms). destruct (@vel_add_pv g _ _ Hd Ho next _ Hv Hs) as (v' & E & Hv' & M). exists v'. split; [exact E|]. split; [exact Hv'|]. intros i. rewrite M, Ms, Zc. ring.
  - destruct (@vel_scal_pv g _ _ Hd Ho dt c Hc) as (Hs & Ms). destruct (@vel_add_pv g _ _ Hd Ho next _ Hv Hs) as (v' & E & Hv' & M). exists v'. split; [exact E|]. split; [exact Hv'|]. intros i. rewrite M, Ms, Zc. ring.
Qed.
(* @ex *)
Lemma learned_correctors_keep_momentum_ex_lem : exists next, (0 < gndim p34g)%nat /\ any_network p34g (toy_tower p34g) /\
  (fun v : list gvar => Ok v) p34v = Ok next /\ periodic_velocity p34g (cell_center p34g) (repeat (periodic_bc (gndim p34g)) (gndim p34g)) next /\
  (exists x c, stack_aligned_field next = Ok x /\ shp x = gshape p34g ++ [c]) /\ (exists x c, stack_aligned_field (p34v ++ next) = Ok x /\ shp x = gshape p34g ++ [c]) /\ momentum next 0 = 4%R.
Proof.
  exists p34v. split; [cbn; lia|]. split; [intros n c x _; eexists; split; reflexivity|]. split; [reflexivity|]. split; [exact p34_pv|]. split; [|split].
  - destruct (@stack_ok (gshape p34g) p34v) as (a & Ea & Sa & _); [discriminate | intros u [<- |[<- | []]]; reflexivity | eauto].
  - destruct (@stack_ok (gshape p34g) (p34v ++ p34v)) as (a & Ea & Sa & _); [discriminate | intros u [<- |[<- |[<- |[<- | []]]]]; reflexivity | eauto].
  - unfold momentum, total. cbn. lra.
Qed.
Definition p34zero : list gvar := map (fun u => mkgv (mkga (afull [3%nat; 4%nat] 0%R) (goff (garray u)) p34g) (gbc u)) p34v.
(* @prop C62 A learned corrector does not keep the velocity divergence-free: there is a network for which learned_corrector, applied with velocity_corrector_network to a base step that returns a velocity of zero divergence, returns a velocity whose divergence is not zero (no projection follows the correction). *)
Lemma learned_corrector_divergence_refuted_lem : exists tower v d v' d',
  periodic_velocity p34g half2 [periodic_bc 2; periodic_bc 2] v /\ divergence v = Ok d /\ is_field d p34g half2 (fun _ => 0%R) /\
  any_network p34g tower /\ learned_corrector (fun v => Ok v) (velocity_corrector_network p34g tower) v = Ok v' /\
  divergence v' = Ok d' /\ get (gdata d') [0; 0] <> 0%R.
Proof.
  assert (Hd : (0 < gndim p34g)%nat) by (cbn; lia).
  assert (Hz : periodic_velocity p34g half2 [periodic_bc 2; periodic_bc 2] p34zero).
  { split; [|split; [|split; [|reflexivity]]].
    - split; [reflexivity|]. repeat constructor; (lia || lra).
    - repeat constructor.
    - intros [|[|[|i]]] u H; simpl in H; try discriminate; injection H as <-; repeat constructor. }
  set (y := fun n => mkarr (gshape p34g ++ [n]) (fun ix => IZR (nth 0 ix 0%Z))).  
  exists (fun n _ => Ok (y n)), p34zero.
  destruct (@div_pv p34g half2 _ Hd eq_refl p34zero Hz) as (d & Ed & Pd). exists d.
  destruct (@velocity_corrector_channels_lem p34g (fun n _ => Ok (y n)) p34zero (y 2%nat) Hd) as (l & El & Ll & Hl); [discriminate | intros u [<- |[<- | []]]; reflexivity | intros; reflexivity | reflexivity|].
  assert (Hpl : periodic_velocity p34g half2 [periodic_bc 2; periodic_bc 2] l) by (apply (@faces_pv p34g l p34zero (fun k ix => get (y 2%nat) (ix ++ [Z.of_nat k])) Hd Hz Ll); exact Hl).
  destruct (@vel_add_vals p34g half2 _ p34zero l Hd eq_refl Hz Hpl) as (v' & Ev & Hv' & Av). exists v'.
  destruct (@div_pv p34g half2 _ Hd eq_refl v' Hv') as (d' & Ed' & (_ & _ & _ & Vd)). exists d'.
  split; [exact Hz|]. split; [exact Ed|]. split; [|split; [intros n x; eexists; split; reflexivity|]].
  { eapply prep_ext; [|exact Pd]. intros ix Hix. unfold divF. apply nsum_zero. intros a Ha. unfold bdF.
    assert (Z : forall jx, vval p34zero a jx = 0%R) by (intros jx; destruct a as [|[|a]]; [reflexivity | reflexivity | unfold gndim in Ha; cbn in Ha; lia]). rewrite !Z. field. destruct (pv_wfg Hd Hz) as (_ & _ & _ & Hh). apply Rgt_not_eq. unfold hstep. destruct a as [|[|a]]; [cbn; lra | cbn; lra | unfold gndim in Ha; cbn in Ha; lia]. }
  split; [unfold learned_corrector; cbn [bind]; rewrite El; exact Ev|]. split; [exact Ed'|]. 
  rewrite Vd by (cbn; lia). 
  assert (V : forall a ix, (a < 2)%nat -> inb [3%nat; 4%nat] ix -> vval v' a ix = IZR (nth 0 ix 0)).
  { intros a ix Ha Hix. rewrite (Av a ix Ha Hix). assert (Z : vval p34zero a ix = 0%R) by (destruct a as [|[|a]]; [reflexivity | reflexivity | lia]). rewrite Z.
    destruct (@pv_prep p34g half2 _ Hd eq_refl l a Hpl Ha) as (_ & _ & _ & P). rewrite <- (P ix Hix). destruct (nth_error l a) as [u|] eqn:Eu; [|apply nth_error_None in Eu; rewrite Ll in Eu; unfold gndim in Eu; cbn in Eu; lia].
    rewrite (nth_error_nth _ _ _ Eu). destruct (Hl a u Eu) as (_ & (_ & _ & _ & Q)). rewrite (Q ix Hix). unfold y. cbn [get].
    destruct ix as [|i ix]; [cbn in Hix; tauto|]. cbn [app nth]. ring. }
  assert (Per : forall a, (a < 2)%nat -> periodic (gshape p34g) (vval v' a)) by (intros a Ha; apply (@periodic_vval p34g v' a (proj1 Hv') Ha)).
  assert (W : forall a ix, (a < 2)%nat -> length ix = 2%nat -> vval v' a ix = vval v' a (wrap [3%nat; 4%nat] ix)) by (intros a ix Ha Hx; symmetry; apply (Per a Ha ix Hx)).
  unfold divF, bdF. change (gndim p34g) with 2%nat. unfold nsum. cbn [seq map lsum fold_right].
  assert (E0 : vval v' 0 [0; 0] = 0%R) by (rewrite V; [reflexivity | lia | cbn; lia]).
  assert (E1 : vval v' 1 [0; 0] = 0%R) by (rewrite V; [reflexivity | lia | cbn; lia]).
  assert (E2 : vval v' 0 (prev 0 [0; 0]) = 2%R) by (rewrite W by (lia || reflexivity); rewrite V; [cbn; reflexivity | lia | cbn; lia]).
  assert (E3 : vval v' 1 (prev 1 [0; 0]) = 0%R) by (rewrite W by (lia || reflexivity); rewrite V; [cbn; reflexivity | lia | cbn; lia]).
  cbn. unfold prev in *. cbn in E2, E3. rewrite ?E0, ?E1, ?E2, ?E3. unfold hstep. cbn. lra.
Qed.
