(** * C48, C68: a whole step with implicit Smagorinsky diffusion *)
From Verif Require Import Prelude NdArr Grids_model Spec Boundaries_model FD_model PRep FDProofs FDProps Pressure_model Interp_model InterpProofs InterpProps Advection_model AdvectionProps Diffusion_model TilingProofs PressureProps FastDiag_model PressureSolve_model PressureSolveProps TimeStep_model Equations_model SpecNS EquationsProps EquationsMoreProps Forcings_model Subgrid_model SpecSub SubgridProps SubgridMoreProps ArrayUtilsProps SpecML Networks_model LearnedProps Viscosities_model SpecVisc ViscosityProps ViscosityFlowProps SpecSmagStep.
Set Implicit Arguments.
Local Open Scope Z_scope.

(* @prop C68 eddy_viscosity_model around the plain Smagorinsky viscosity of ml/viscosities, whatever the viscosity scale (which that function ignores): for every staggered periodic velocity with one set of boundary conditions it is a legitimate term of the equation, exerts no net force, and never does positive work on the flow; and the result does not depend on the scale. *)
Lemma smagorinsky_eddy_viscosity_lem : forall g o b specs_viscosity scale cs, (0 < gndim g)%nat -> length o = gndim g ->
  let f := eddy_viscosity_model specs_viscosity scale (fun s => ml_smagorinsky_viscosity linear_fn cs s) in
  any_term g o (repeat b (gndim g)) f /\ no_net_force g o (repeat b (gndim g)) f /\ takes_energy g o (repeat b (gndim g)) f /\
  (forall specs_viscosity' scale' v, f v = eddy_viscosity_model specs_viscosity' scale' (fun s => ml_smagorinsky_viscosity linear_fn cs s) v).
Proof.
  intros g o b sv scale cs Hd Ho f.
  assert (Ef : forall w, f w = evm_model (smagorinsky_viscosity linear_fn cs) w) by reflexivity.
  assert (D : forall w, periodic_velocity g o (repeat b (gndim g)) w -> exists l, f w = Ok l /\ (forall x, In x l -> total (gdata x) = 0%R) /\ (work g w l <= 0)%R).
  { intros w Hw. pose proof (@pv_same g o b w Hw) as Hs. destruct Hw as (Hv & _ & Hf & _). destruct (@smagorinsky_dissipates_lem g o cs w b Hd Ho Hv Hf Hs) as (l & E & _ & Z & _ & W). exists l. rewrite Ef. auto. }
  split; [|split; [|split]].
  - intros w Hw. destruct (@smag_fields g o cs b w Hd Ho Hw) as (l & E & H). exists l. eexists. split; [rewrite Ef; exact E | exact H].
  - intros w l i x Hw E Hx. destruct (D w Hw) as (l' & E' & Z & _). rewrite E in E'. injection E' as <-. apply Z. exact (nth_error_In _ _ Hx).
  - intros w l Hw E. destruct (D w Hw) as (l' & E' & _ & W). rewrite E in E'. injection E' as <-. exact W.
  - intros sv' scale' v. reflexivity.
Qed.
(* @ex *)
Lemma smagorinsky_eddy_viscosity_ex_lem : (0 < gndim p34g)%nat /\ length half2 = gndim p34g /\ periodic_velocity p34g half2 (repeat (periodic_bc 2) (gndim p34g)) p34v.
Proof. split; [cbn; lia|]. split; [reflexivity | exact p34_pv]. Qed.

(* @prop C48 One step of implicit_smagorinsky_navier_stokes with the default convection, for every Smagorinsky constant, density, viscosity >= 0, time step >= 0, forcing and pressure solver, and every inner solver that, when it returns, returns a solution of the implicit equation: the explicitly advanced velocity v + dt (convection + forcing / density) is projected first, giving vp; whenever the step returns, the returned velocity is staggered and periodic like v, each component's total is that of v plus dt / density times the total force (so without forcing momentum is conserved), and its kinetic energy does not exceed that of vp. *)
Lemma implicit_smagorinsky_step_lem : forall cg g o b density nu dt cs solve forcing Fo v v',
  (0 < gndim g)%nat -> length o = gndim g -> periodic_velocity g o (repeat b (gndim g)) v -> pressure_solver g o solve -> (0 <= nu)%R -> (0 <= dt)%R ->
  (forall f, forcing = Some f -> exists lf, f v = Ok lf /\ fields_at g v lf Fo) ->
  inner_solver g o b (evm_linear_op b nu dt (evm_model (smagorinsky_viscosity linear_fn cs))) cg ->
  implicit_smagorinsky_navier_stokes cg density nu dt cs (default_convect dt) solve forcing v = Ok v' ->
  exists lc C star vp, default_convect dt v = Ok lc /\ fields_at g v lc C /\ periodic_velocity g o (repeat b (gndim g)) star /\
    (forall i u, nth_error star i = Some u -> exists w, nth_error v i = Some w /\ is_field (garray u) g (goff (garray w)) (fun ix => vval v i ix + dt * (C i ix + match forcing with Some _ => Fo i ix / density | None => 0 end))%R) /\
    projection solve star = Ok vp /\
    periodic_velocity g o (repeat b (gndim g)) v' /\
    (forall i, (i < gndim g)%nat -> momentum v' i = momentum v i + match forcing with Some _ => dt / density * asum (gshape g) (Fo i) | None => 0 end)%R /\
    (kinetic g (vval v') <= kinetic g (vval vp))%R.
Proof.
  intros cg g o b density nu dt cs solve forcing Fo v v' Hd Ho Hv Hs Hnu Hdt HF Hcg Estep.
  destruct (@default_convect_prep g o _ v dt Hd Hv) as (lc & C & Ec & Hc & Sc).
  unfold implicit_smagorinsky_navier_stokes in Estep.
  destruct (@implicit_explicit_part g o (repeat b (gndim g)) density nu dt (default_convect dt) (implicit_evm_solve_with_diffusion cg (evm_model (smagorinsky_viscosity linear_fn cs))) solve forcing v lc C Fo Hd Ho Hv Ec Hc HF) as (star & Hst & Vst & E).
  destruct (@projection_pv g o _ Hd Ho solve star Hst Hs) as (vp & Ep & Hvp & Mp). rewrite E, Ep in Estep. cbn [bind] in Estep.
  assert (Hx : exists x, cg (evm_linear_op b nu dt (evm_model (smagorinsky_viscosity linear_fn cs))) (map garray vp) = Ok x).
  { unfold implicit_evm_solve_with_diffusion in Estep. rewrite (pvec_all_periodic (proj1 Hvp)) in Estep. cbn [negb] in Estep.
    rewrite (@unique_bc_same vp b) in Estep by (pose proof (pv_len Hvp); lia || exact (@pv_same g o b vp Hvp)). cbn [bind] in Estep.
    destruct (cg (evm_linear_op b nu dt (evm_model (smagorinsky_viscosity linear_fn cs))) (map garray vp)) as [x|e] eqn:Ex; [exists x; reflexivity | discriminate Estep]. }
  destruct Hx as (x & Ex). destruct (Hcg vp x Hvp Ex) as (HX & y & Ey & Hy).
  destruct (@implicit_smagorinsky_solve_lem cg g o b cs nu dt vp x y Hd Ho Hvp Hnu Hdt Ex HX Ey Hy) as (v'' & E2 & Hv' & Hm & Hk).
  rewrite Estep in E2. assert (v'' = v') by congruence. subst v''.
  exists lc, C, star, vp. split; [exact Ec|]. split; [exact Hc|]. split; [exact Hst|]. split; [|split; [exact Ep|]; split; [exact Hv'|]; split; [|exact Hk]].
  - intros i u Hu. pose proof (pv_len Hst) as HL. assert (Hi : (i < gndim g)%nat) by (rewrite <- HL; apply nth_error_Some; congruence).
    specialize (Vst i Hi). rewrite (nth_error_nth _ _ _ Hu) in Vst. exists (nth i v dgv). split; [apply nth_error_nth'; rewrite (pv_len Hv); exact Hi | exact Vst].
  - intros i Hi. rewrite Hm, Mp. rewrite momentum_nth by (rewrite (pv_len Hst); exact Hi). rewrite (total_is (Vst i Hi)), (momentum_pv Hd Ho Hv Hi).
    rewrite asum_plus, asum_scal, asum_plus, (Sc i Hi). destruct forcing as [f|].
    + rewrite (@asum_ext (gshape g) (fun ix => Fo i ix / density)%R (fun ix => / density * Fo i ix)%R) by (intros ix _; unfold Rdiv; ring). rewrite asum_scal. unfold Rdiv. ring.
    + rewrite asum_0. ring.
Qed.

(** ** example: no subgrid viscosity (cs = 0), viscosity 3, time step 1, the eigenvalue solver as the inner solver *)
Definition p34_cg (tpu : bool) eigh (op : list garr -> result (list garr)) (w : list garr) : result (list garr) :=
  let* v := mapM (fun u => mk_gvar u (periodic_bc 2)) w in let* v' := p34_ds tpu eigh v 3 1 in Ok (map garray v').
Lemma lerp_0 n : forall p q ix, lerp n p q (fun _ => 0%R) ix = 0%R.
Proof. induction n as [|n IH]; intros p q ix; [reflexivity|]. cbn [lerp]. unfold lerp_axis. rewrite !IH. ring. Qed.
Lemma eddy_0 g o v i j ix : length ix = gndim g -> eddy_viscosity g o 0 v i j ix = 0%R.
Proof.
  intros HL. unfold eddy_viscosity. rewrite (@lerp_ext (gshape g) (gndim g) _ _ _ (fun _ => 0%R)); [apply lerp_0 | intros jx _; ring | exact HL].
Qed.
Lemma evmF_0 g v N i ix : (forall i j jx, length jx = gndim g -> N i j jx = 0%R) -> length ix = gndim g -> evmF g v N i ix = 0%R.
Proof.
  intros HN HL. unfold evmF, divF. rewrite (@nsum_ext _ _ (fun _ => 0%R)).
  - rewrite nsum_const. ring.
  - intros k _. unfold bdF, wrapped. rewrite !HN by (apply wrap_length; rewrite ?shiftix_length; exact HL). unfold Rdiv. ring.
Qed.
Lemma p34_mk w : periodic_velocity p34g half2 (repeat (periodic_bc 2) 2) w -> mapM (fun u => mk_gvar u (periodic_bc 2)) (map garray w) = Ok w.
Proof.
  intros Hw. pose proof (@pv_same p34g half2 (periodic_bc 2) w Hw) as Hb. destruct Hw as ((_ & HF) & _). induction w as [|u w IH]; [reflexivity|]. cbn [map mapM]. inversion HF as [|? ? H1 H2]; subst.
  assert (Eu : mk_gvar (garray u) (periodic_bc 2) = Ok u).
  { unfold mk_gvar. rewrite <- (Hb u (or_introl eq_refl)). destruct H1 as ((_ & Hp) & _). rewrite Hp, repeat_length, Nat.eqb_refl. destruct u; reflexivity. }
  rewrite Eu. cbn [bind]. rewrite IH; [reflexivity | first [exact H2 | intros x Hx; apply Hb; right; exact Hx] | first [exact H2 | intros x Hx; apply Hb; right; exact Hx]].
Qed.
Lemma p34_inner tpu eigh : inner_solver p34g half2 (periodic_bc 2) (evm_linear_op (periodic_bc 2) 3 1 (evm_model (smagorinsky_viscosity linear_fn 0))) (p34_cg tpu eigh).
Proof.
  intros w x Hw E. assert (Hd : (0 < gndim p34g)%nat) by (cbn; lia). assert (Ho : length half2 = gndim p34g) by reflexivity. unfold p34_cg in E. rewrite (p34_mk Hw) in E. cbn [bind] in E.
  destruct (@p34_diff tpu eigh 3 1 ltac:(lra) w Hw) as (u & Eu & HF). rewrite Eu in E. cbn [bind] in E. injection E as <-.
  destruct (@diffused_pv p34g half2 _ Hd Ho _ _ _ Hw HF) as (Hu & Eq).
  assert (Hoff : forall i, (i < length w)%nat -> off_eq (goff (garray (nth i u dgv))) (goff (garray (nth i w dgv)))).
  { intros i Hi. rewrite (pv_len Hw) in Hi. apply off_eq_sym. eapply off_eq_trans; [apply (pv_off Hd Ho Hw Hi) | apply off_eq_sym; apply (pv_off Hd Ho Hu Hi)]. }
  split.
  - exists (vval u). apply fields_at_intro; [rewrite map_length, (pv_len Hu), (pv_len Hw); reflexivity|]. intros i Hi. assert (Hi' : (i < gndim p34g)%nat) by (rewrite <- (pv_len Hw); exact Hi).
    rewrite (nth_map' _ _ dgv dga) by (rewrite (pv_len Hu); exact Hi'). eapply prep_off; [apply Hoff; exact Hi|]. exact (proj1 (periodic_vec_pvar (proj1 Hu) Hi')).
  - destruct (@evm_op_calc p34g half2 (periodic_bc 2) 3 1 _ u _ Hd Ho Hu (@smag_fields p34g half2 0 (periodic_bc 2) u Hd Ho Hu)) as (y & Ey & Hy). exists y. split; [exact Ey|].
    apply fields_at_intro; [rewrite (proj1 Hy), (pv_len Hu), (pv_len Hw); reflexivity|]. intros i Hi. assert (Hi' : (i < gndim p34g)%nat) by (rewrite <- (pv_len Hw); exact Hi).
    assert (Hi2 : (i < length u)%nat) by (rewrite (pv_len Hu); exact Hi'). eapply prep_off; [apply Hoff; exact Hi|]. destruct (fields_at_nth Hy Hi2) as (A & B & C & V). split; [exact A|]. split; [exact B|]. split; [exact C|].
    intros ix Hix. rewrite (V ix Hix), evmF_0; [|intros; apply eddy_0; assumption | exact (inb_length _ _ Hix)]. rewrite <- (Eq i ix Hi' (inb_length _ _ Hix)). ring.
Qed.
(* @ex *)
Lemma implicit_smagorinsky_step_ex_lem : forall tpu eigh, exists v' Fo,
  (0 < gndim p34g)%nat /\ length half2 = gndim p34g /\ periodic_velocity p34g half2 (repeat (periodic_bc 2) (gndim p34g)) p34v /\
  pressure_solver p34g half2 (fun v _ b => pressure_solve_fast_diag tpu eigh (1 / 1000) v (Some b) (Some Fft)) /\ (0 <= 3)%R /\ (0 <= 1)%R /\
  (forall f, Some push = Some f -> exists lf, f p34v = Ok lf /\ fields_at p34g p34v lf Fo) /\
  inner_solver p34g half2 (periodic_bc 2) (evm_linear_op (periodic_bc 2) 3 1 (evm_model (smagorinsky_viscosity linear_fn 0))) (p34_cg tpu eigh) /\
  implicit_smagorinsky_navier_stokes (p34_cg tpu eigh) 1 3 1 0 (default_convect 1) (fun v _ b => pressure_solve_fast_diag tpu eigh (1 / 1000) v (Some b) (Some Fft)) (Some push) p34v = Ok v'.
Proof.
  intros tpu eigh. assert (Hd : (0 < gndim p34g)%nat) by (cbn; lia). assert (Ho : length half2 = gndim p34g) by reflexivity.
  destruct (push_fields p34_pv) as (lf & Fo & Ef & Hf). assert (HF : forall f, Some push = Some f -> exists lf, f p34v = Ok lf /\ fields_at p34g p34v lf Fo) by (intros f Ep; injection Ep as <-; eauto).
  destruct (@default_convect_prep p34g half2 _ p34v 1 Hd p34_pv) as (lc & C & Ec & Hc & _).
  set (solve := fun (v : list gvar) (_ : gvar) b => pressure_solve_fast_diag tpu eigh (1 / 1000) v (Some b) (Some Fft)).
  pose proof (solves_is_solver (p34_solver tpu eigh)) as Hs. fold solve in Hs.
  destruct (@implicit_explicit_part p34g half2 _ 1 3 1 (default_convect 1) (implicit_evm_solve_with_diffusion (p34_cg tpu eigh) (evm_model (smagorinsky_viscosity linear_fn 0))) solve (Some push) p34v lc C Fo Hd Ho p34_pv Ec Hc HF) as (star & Hst & _ & E).
  destruct (@projection_pv p34g half2 _ Hd Ho solve star Hst Hs) as (vp & Ep & Hvp & _).
  assert (Ecg : exists x, p34_cg tpu eigh (evm_linear_op (periodic_bc 2) 3 1 (evm_model (smagorinsky_viscosity linear_fn 0))) (map garray vp) = Ok x).
  { unfold p34_cg. rewrite (p34_mk Hvp). cbn [bind]. destruct (@p34_diff tpu eigh 3 1 ltac:(lra) vp Hvp) as (u & Eu & _). rewrite Eu. eexists. reflexivity. }
  destruct Ecg as (x & Ex). destruct (@p34_inner tpu eigh vp x Hvp Ex) as (HX & y & Ey & Hy).
  destruct (@implicit_smagorinsky_solve_lem (p34_cg tpu eigh) p34g half2 (periodic_bc 2) 0 3 1 vp x y Hd Ho Hvp ltac:(lra) ltac:(lra) Ex HX Ey Hy) as (v' & E2 & _).
  exists v', Fo. split; [exact Hd|]. split; [exact Ho|]. split; [exact p34_pv|]. split; [exact Hs|]. split; [lra|]. split; [lra|]. split; [exact HF|]. split; [apply p34_inner|].
  unfold implicit_smagorinsky_navier_stokes. rewrite E, Ep. exact E2.
Qed.
