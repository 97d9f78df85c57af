(** * Solvers with learned interpolation, end to end (C76) *)
From Verif Require Import Prelude NdArr Grids_model Spec SpecDiff SpecNS SpecML LinAlg Cplx FastDiag_model Laplacian_model PressureSolve_model Boundaries_model BoundariesPeriodic FD_model Interp_model Pressure_model Advection_model ArrayUtils_model TimeStep_model Diffusion_model Equations_model PRep FDProofs FDProps InterpProps ArrayUtilsProps PressureProps PressureSolveProps AdvectionProofs AdvectionProps EquationsProps EquationsMoreProps Networks_model NetworksProps LearnedProps.
From Verif Require StencilLayerProps.
From Verif Require Import Tiling_model SpecTile Stencil_model SpecStencil Viscosities_model LearnedInterp_model SpecLInt LearnedInterpDict StencilLayerProps LearnedInterpEx LearnedInterpProps LearnedSolver_model SpecLSolve.
Set Implicit Arguments.
Local Open Scope Z_scope.

(** ** advection with interpolations that work where they are asked *)
Lemma asked_general g c v (ui ci : interp_fn) dt U C : (0 < gndim g)%nat -> periodic_field c -> ggrid (garray c) = g ->
  periodic_vec g v -> homogeneous_vec v ->
  (forall i, (i < gndim g)%nat -> exists w, ui (nth i v dgv) (nth i (cv_offsets (goff (garray c))) []) v dt = Ok w /\ gbc w = gbc (nth i v dgv) /\ prep g (nth i (cv_offsets (goff (garray c))) []) (U i) (garray w)) ->
  (forall i av, (i < gndim g)%nat -> exists w, ci c (nth i (cv_offsets (goff (garray c))) []) av dt = Ok w /\ prep g (nth i (cv_offsets (goff (garray c))) []) (C i) (garray w)) ->
  exists w, advect_general c v ui ci dt = Ok w /\ prep g (goff (garray c)) (fun ix => - divF g (fun i jx => wrapF g (C i) jx * wrapF g (U i) jx) ix)%R w.
Proof.
  intros Hd Hc Hg Hv Hh Hui Hci. pose proof (pf_wfg Hc) as Hw. rewrite Hg in Hw. pose proof (pf_off Hc) as Ho. rewrite Hg in Ho. set (o := goff (garray c)) in *.
  set (os := fun i => nth i (cv_offsets o) []). pose proof Hv as (HLv & _).
  assert (OL : forall i, (i < gndim g)%nat -> length (os i) = gndim g) by (intros i Hi; unfold os; rewrite cv_nth_length; lia).
  unfold advect_general. rewrite (has_all_periodic_pf Hc). cbn [negb]. fold o.
  destruct (@mapM_combine gvar (list Q) gvar (fun ut => ui (fst ut) (snd ut) v dt)
    (fun i w => gbc w = gbc (nth i v dgv) /\ prep g (os i) (U i) (garray w)) v (cv_offsets o) dgv []) as (av & Eav & HLav & Hav).
  { rewrite cv_length. lia. }
  { intros i Hi. cbn [fst snd]. destruct (Hui i ltac:(lia)) as (w & E & B & P). exists w. auto. }
  rewrite Eav. cbn [bind].
  assert (Hl : cv_offsets o = map os (seq 0 (gndim g))).
  { apply nth_ext with (d := []) (d' := os 0%nat); [rewrite cv_length, map_length, seq_length; auto|].
    intros n Hn. rewrite cv_length in Hn. rewrite nth_map_seq by lia. reflexivity. }
  destruct (@mapM_seq gvar (fun i => ci c (os i) av dt) (fun i w => prep g (os i) (C i) (garray w)) (gndim g)) as (ac & Eac & HLac & Hac).
  { intros i Hi. destruct (Hci i av Hi) as (w & E & P). exists w. eauto. }
  assert (Em : mapM (fun t => ci c t av dt) (cv_offsets o) = Ok ac).
  { rewrite Hl. rewrite <- Eac. clear. generalize (seq 0 (gndim g)). induction l; simpl; [reflexivity|]. rewrite IHl. reflexivity. }
  rewrite Em. cbn [bind].
  destruct (@aligned_prep g o os (fun i => wrapF g (U i)) (fun i => wrapF g (C i)) ac av Hw Hd) as (w & E & P); [auto | lia | |].
  - intros i Hi. destruct (Hav i dgv ltac:(lia)) as (Eb & Fv). destruct (periodic_vec_nth Hv Hi) as (Hp & Hpg). split; [split; [apply wrapF_prep; exact Fv | rewrite Eb; rewrite <- Hpg; apply (proj2 Hp)]|]. split.
    { rewrite Eb. unfold homogeneous_vec in Hh. rewrite Forall_forall in Hh. apply Hh. apply nth_In. lia. }
    split; [apply wrapF_prep; apply Hac; exact Hi|]. split; [apply OL; auto|]. split.
    { eapply off_eq_trans; [apply off_eq_offs; [apply cv_nth; lia | reflexivity]|]. apply offs_half_back. }
    split; apply wrapF_periodic.
  - exists w. split; [exact E | exact P].
Qed.
Lemma offs_comm i j q r o : off_eq (offs i q (offs j r o)) (offs j r (offs i q o)).
Proof.
  apply off_eq_intro; [rewrite !offs_length; reflexivity|]. intros k Hk. rewrite !offs_length in Hk. unfold offs.
  destruct (Nat.eq_dec i j) as [<- | Hne].
  - rewrite !upd_upd_same. destruct (Nat.eq_dec k i) as [-> | Hki]; [rewrite !nth_upd_same by auto; ring | rewrite !nth_upd_other by auto; reflexivity].
  - rewrite (@nth_upd_other _ j i) by auto. rewrite (@nth_upd_other _ i j) by auto. rewrite upd_upd_comm by auto. reflexivity.
Qed.

Section Solver.
Variables (solve : list (list R) -> list R -> result (list R)) (svd : list (list R) -> list (list R)) (g : grid) (o : list Q) (bs : list bcs) (v : list gvar) (tags : list tag) (fn : ikey -> list nat) (tower : nat -> arr R -> result (arr R)).
Hypotheses (Hset : learned_setting solve svd g v tags fn tower) (Hv : periodic_velocity g o bs v) (Tc : In tag_c tags) (Tu : In tag_u tags).
Variable W : list Q * list Q * option nat -> list Z -> list Z -> R.
Variable T : list (ikey * (arr R -> result (arr R))).
Hypothesis HW : forall k c offset, asked v tags k -> cell_data g (fst (fst k)) c -> off_eq offset (snd (fst k)) ->
        exists r, learned_call T c offset (snd k) = Ok r /\
          carried g c offset (fun ix => asum (fn k) (fun t => W k ix t * get (gdata (garray c)) (cell_at (gshape g) (map before (fn k)) ix t)))%R r.
Lemma ls_dim : (0 < gndim g)%nat.
Proof. apply Hset. Qed.
Lemma ls_key a b t w offset : (a < gndim g)%nat -> (b < gndim g)%nat -> In t tags -> periodic_velocity g o bs w -> off_eq offset (offs b (1 # 2) (offs a (1 # 2) o)) ->
  let off := goff (garray (nth a v dgv)) in let k := (off, half_a_cell b off, t) in
  exists r, learned_call T (nth a w dgv) offset t = Ok r /\ gbc r = gbc (nth a w dgv) /\ prep g offset (stencil_average (gshape g) (fn k) (W k) (vval w a)) (garray r).
Proof.
  intros Ha Hb Ht Hw Hoff off k. pose proof (pv_len Hv) as Lv. pose proof (pv_len Hw) as Lw.
  assert (Ov : off_eq off (offs a (1 # 2) o)) by (destruct Hv as (_ & _ & HF & _); apply HF; apply nth_error_nth'; lia).
  assert (Ow : off_eq (goff (garray (nth a w dgv))) (offs a (1 # 2) o)) by (destruct Hw as (_ & _ & HF & _); apply HF; apply nth_error_nth'; lia).
  destruct Hset as (_ & _ & _ & _ & _ & HN & _ & _ & Hu & _).
  assert (Hin : In (nth a v dgv) v) by (apply nth_In; lia). destruct (Hu _ Hin) as (Sv & Lo).
  destruct Hw as (Pw & _). destruct (periodic_vec_nth Pw Ha) as (Hp & Hpg). pose proof (pf_wfg Hp) as Hwf. rewrite Hpg in Hwf.
  assert (Hk : asked v tags k) by (exists (nth a v dgv), b, t; split; [exact Hin|]; split; [rewrite Lo; exact Hb|]; split; [exact Ht | reflexivity]).
  destruct Hp as ((_ & Hs & _) & Hpb). rewrite Hpg in Hs, Hpb.
  destruct (@HW k (nth a w dgv) offset Hk) as (r & Er & C1 & C2 & C3 & C4 & C5).
  - split; [cbn [fst k]; eapply off_eq_trans; [exact Ow | apply off_eq_sym; exact Ov]|]. split; [exact Hs|]. rewrite Hpg, Hpb. apply repeat_length.
  - cbn [fst snd k]. eapply off_eq_trans; [exact Hoff|]. apply (@off_eq_offs b (1 # 2) (1 # 2)); [apply off_eq_sym; exact Ov | reflexivity].
  - exists r. split; [exact Er|]. split; [exact C1|]. split; [rewrite C2; exact Hpg|]. split; [rewrite C3; apply off_eq_refl|]. split; [exact C4|].
    intros ix Hix. rewrite C5 by exact Hix. unfold stencil_average. rewrite wrap_inb by exact Hix. apply asum_ext. intros t' _. f_equal.
    unfold vval. rewrite (nth_error_nth' w dgv) by lia. unfold pval. rewrite Hs, wrap_inb by (apply StencilLayerProps.cell_at_in; exact HN). reflexivity.
Qed.
Lemma ls_conv dt w : periodic_velocity g o bs w ->
  exists l, mapM (fun u => modular_self_advection T u w dt) w = Ok l /\
    fields_at g w l (fun j ix => - divF g (fun i jx => wrapF g (fun kx => stencil_average (gshape g) (fn (goff (garray (nth j v dgv)), half_a_cell i (goff (garray (nth j v dgv))), tag_c)) (W (goff (garray (nth j v dgv)), half_a_cell i (goff (garray (nth j v dgv))), tag_c)) (vval w j) kx) jx *
       wrapF g (fun kx => stencil_average (gshape g) (fn (goff (garray (nth i v dgv)), half_a_cell j (goff (garray (nth i v dgv))), tag_u)) (W (goff (garray (nth i v dgv)), half_a_cell j (goff (garray (nth i v dgv))), tag_u)) (vval w i) kx) jx)%R ix)%R.
Proof.
  intros Hw. pose proof (pv_len Hw) as Lw. pose proof ls_dim as Hd.
  destruct (@mapM_enum gvar garr (fun ju => modular_self_advection T (snd ju) w dt)
    (fun j x => prep g (goff (garray (nth j w dgv))) (fun ix => - divF g (fun i jx => wrapF g (fun kx => stencil_average (gshape g) (fn (goff (garray (nth j v dgv)), half_a_cell i (goff (garray (nth j v dgv))), tag_c)) (W (goff (garray (nth j v dgv)), half_a_cell i (goff (garray (nth j v dgv))), tag_c)) (vval w j) kx) jx *
       wrapF g (fun kx => stencil_average (gshape g) (fn (goff (garray (nth i v dgv)), half_a_cell j (goff (garray (nth i v dgv))), tag_u)) (W (goff (garray (nth i v dgv)), half_a_cell j (goff (garray (nth i v dgv))), tag_u)) (vval w i) kx) jx)%R ix)%R x) w dgv) as (l & E & Ll & Hl).
  { intros j Hj. cbn [snd]. unfold modular_self_advection. assert (Hj' : (j < gndim g)%nat) by lia.
    pose proof Hw as (Pw & Hh & Hfa & _). destruct (periodic_vec_nth Pw Hj') as (Hp & Hpg). pose proof (pf_off Hp) as Ho. rewrite Hpg in Ho.
    assert (Oj : off_eq (goff (garray (nth j w dgv))) (offs j (1 # 2) o)) by (apply Hfa; apply nth_error_nth'; lia).
    assert (Ocv : forall i, (i < gndim g)%nat -> off_eq (nth i (cv_offsets (goff (garray (nth j w dgv)))) []) (offs i (1 # 2) (offs j (1 # 2) o))).
    { intros i Hi. eapply off_eq_trans; [apply cv_nth; lia|]. apply off_eq_offs; [exact Oj | reflexivity]. }
    apply (@asked_general g (nth j w dgv) w (tagged T tag_u) (tagged T tag_c) dt); auto.
    - intros i Hi. unfold tagged. apply (@ls_key i j tag_u w); auto. eapply off_eq_trans; [apply Ocv; exact Hi | apply offs_comm].
    - intros i av Hi. unfold tagged. destruct (@ls_key j i tag_c w _ Hj' Hi Tc Hw (Ocv i Hi)) as (r & Er & _ & P). exists r. split; [exact Er | exact P]. }
  rewrite (mapM_enum_snd (fun u => modular_self_advection T u w dt) w) in E. exists l. split; [exact E|]. apply fields_at_intro; [exact Ll|]. intros i Hi. apply (Hl i dga Hi).
Qed.
End Solver.

(* @prop C76 Self-advection with a learned interpolation built from the state v, for every network and all implementation options: on every staggered periodic velocity w the convection term of component j is minus the divergence of a flux, the product of the averages of components i and j over stencils half a cell away, with weights that add up to one and depend on the network and on v only. *)
Lemma learned_convection_flux_form_lem : forall solve svd g o bs v tags fn tower, learned_setting solve svd g v tags fn tower -> periodic_velocity g o bs v -> In tag_c tags -> In tag_u tags ->
  exists W, averaging_weights v tags fn W /\
  forall pm fuse_constraints fuse_patches constrain_with_conv layout dt w, options_fit (gshape g) (fun S => exists k, asked v tags k /\ fn k = S) pm fuse_constraints fuse_patches constrain_with_conv layout ->
    periodic_velocity g o bs w ->
    exists l, learned_convection solve svd g dt tags fn tower pm fuse_constraints fuse_patches constrain_with_conv layout v w = Ok l /\
      fields_at g w l (fun j ix => - nsum (gndim g) (fun i => (learned_flux g v fn W tag_c tag_u w i j ix - learned_flux g v fn W tag_c tag_u w i j (prev i ix)) / hstep g i))%R.
Proof.
  intros solve svd g o bs v tags fn tower Hset Hv Tc Tu. destruct (learned_interpolation_averages_lem Hset) as (W & HW1 & HW2). exists W. split; [exact HW1|].
  intros pm fc fp cc layout dt w Ho Hw. destruct (HW2 pm fc fp cc layout Ho) as (T & ET & HC). unfold learned_convection. rewrite ET. cbn [bind].
  destruct (@ls_conv solve svd g o bs v tags fn tower Hset Hv Tc Tu W T HC dt w Hw) as (l & E & Hl & HF). exists l. split; [exact E|]. split; [exact Hl|].
  intros j u x Hu Hx. pose proof (pv_len Hv) as Lv. pose proof (pv_len Hw) as Lw. assert (Hj : (j < gndim g)%nat) by (rewrite <- Lw; apply nth_error_Some; congruence).
  eapply prep_ext; [|exact (HF j u x Hu Hx)]. intros ix Hix. cbv beta. f_equal. unfold divF. apply nsum_ext. intros i Hi. unfold bdF, prev, learned_flux.
  rewrite (nth_error_nth' v dgv (n := j)) by lia. rewrite (nth_error_nth' v dgv (n := i)) by lia. unfold wrapF, stencil_average.
  assert (HLx : length ix = length (gshape g)) by (apply inb_length; exact Hix).
  rewrite !wrap_wrap by (rewrite ?shiftix_length; exact HLx). reflexivity.
Qed.
Lemma ls_flux_periodic g v fn W tc tu w i j : periodic (gshape g) (learned_flux g v fn W tc tu w i j).
Proof. intros ix HL. unfold learned_flux, stencil_average. rewrite !wrap_wrap by exact HL. reflexivity. Qed.
(* @prop C76 It is a term of the equation that exerts no net force: whatever the network, the total of every component of the learned convection term is zero. *)
Lemma learned_convection_no_net_force_lem : forall solve svd g o bs v tags fn tower pm fuse_constraints fuse_patches constrain_with_conv layout dt,
  learned_setting solve svd g v tags fn tower -> periodic_velocity g o bs v -> In tag_c tags -> In tag_u tags ->
  options_fit (gshape g) (fun S => exists k, asked v tags k /\ fn k = S) pm fuse_constraints fuse_patches constrain_with_conv layout ->
  any_term g o bs (learned_convection solve svd g dt tags fn tower pm fuse_constraints fuse_patches constrain_with_conv layout v) /\
  no_net_force g o bs (learned_convection solve svd g dt tags fn tower pm fuse_constraints fuse_patches constrain_with_conv layout v).
Proof.
  intros solve svd g o bs v tags fn tower pm fc fp cc layout dt Hset Hv Tc Tu Ho. destruct (learned_convection_flux_form_lem Hset Hv Tc Tu) as (W & _ & HC). split.
  - intros w Hw. destruct (HC pm fc fp cc layout dt w Ho Hw) as (l & E & P). eauto.
  - intros w l j x Hw E Hx. destruct (HC pm fc fp cc layout dt w Ho Hw) as (l' & E' & PL & P). rewrite E in E'. injection E' as <-.
    assert (Hd : (0 < gndim g)%nat) by apply Hset. pose proof (pv_wfg Hd Hw) as Hwf. pose proof (pv_len Hw) as Lw.
    destruct (nth_error w j) as [u|] eqn:Eu; [|apply nth_error_None in Eu; assert (j < length l)%nat by (apply nth_error_Some; congruence); lia].
    rewrite (total_is (P j u x Eu Hx)), asum_opp.
    rewrite (@asum_ext (gshape g) _ (divF g (fun i => learned_flux g v fn W tag_c tag_u w i j))) by (intros; reflexivity).
    rewrite sum_divF; [ring | apply Hwf | intros i Hi; apply ls_flux_periodic].
Qed.
(* @prop C76 One step of modular_navier_stokes_model with self-advection by learned interpolation, on top of the semi-implicit solver, for every network, every explicit Runge-Kutta tableau, viscosity, density, time step and forcing: if the pressure solver solves its Poisson equation, the step succeeds on every staggered periodic velocity and returns one whose divergence is zero in every cell; and if the forcing exerts no net force, the total of every component is conserved. *)
Lemma learned_solver_step_lem : forall t solve svd psolve g o bs v tags fn tower pm fuse_constraints fuse_patches constrain_with_conv layout density viscosity dt forcing,
  learned_setting solve svd g v tags fn tower -> periodic_velocity g o bs v -> In tag_c tags -> In tag_u tags ->
  options_fit (gshape g) (fun S => exists k, asked v tags k /\ fn k = S) pm fuse_constraints fuse_patches constrain_with_conv layout ->
  length o = gndim g -> explicit_tableau t -> (viscosity <> None -> density <> 0%R) -> solves_poisson g o psolve -> any_term g o bs forcing ->
  exists v' d, modular_navier_stokes_model (fun convect f => semi_implicit_navier_stokes t density viscosity dt convect diffuse psolve f) forcing
      (learned_convection solve svd g dt tags fn tower pm fuse_constraints fuse_patches constrain_with_conv layout) [] v = Ok v' /\
    periodic_velocity g o bs v' /\ divergence v' = Ok d /\ is_field d g o (fun _ => 0%R) /\
    (no_net_force g o bs forcing -> forall i, momentum v' i = momentum v i).
Proof.
  intros t solve svd psolve g o bs v tags fn tower pm fc fp cc layout density viscosity dt forcing Hset Hv Tc Tu Hopt Ho Ht Hden Hs Hf.
  destruct (@learned_convection_no_net_force_lem solve svd g o bs v tags fn tower pm fc fp cc layout dt Hset Hv Tc Tu Hopt) as (HA & HN).
  assert (Hd : (0 < gndim g)%nat) by apply Hset.
  destruct (@modular_semi_implicit_lem t g o bs density viscosity dt psolve forcing (learned_convection solve svd g dt tags fn tower pm fc fp cc layout) [] v) as (v' & d & E & P & Ed & Z & M); auto.
  - intros m [].
  - exists v', d. split; [exact E|]. split; [exact P|]. split; [exact Ed|]. split; [exact Z|]. intros Hz. apply M; auto. intros m [].
Qed.
(** ** one state is as good as another *)
Lemma F2_nth_intro {A B} (P : A -> B -> Prop) l : forall l' d d', length l = length l' -> (forall i, (i < length l)%nat -> P (nth i l d) (nth i l' d')) -> Forall2 P l l'.
Proof. induction l as [|a l IH]; intros [|b l'] d d' L H; cbn in L; try lia; constructor; [apply (H 0%nat); cbn; lia|]. apply (IH l' d d'); [lia|]. intros i Hi. apply (H (S i)). cbn. lia. Qed.
Lemma asked_match v v' tags k : Forall2 (fun u u' => off_eq (goff (garray u)) (goff (garray u'))) v v' -> asked v' tags k -> exists k0, asked v tags k0 /\ key_eqb k0 k = true.
Proof.
  intros H (u & j & t & H1 & H2 & H3 & ->). destruct (In_nth _ _ u H1) as (i & Hi & Ei). pose proof (F2_length H) as L.
  assert (E : off_eq (goff (garray (nth i v u))) (goff (garray u))) by (rewrite <- Ei at 2; clear -H Hi; revert i Hi; induction H as [|a b l l' E H IH]; intros [|i] Hi; cbn in *; try lia; [exact E | apply IH; lia]).
  exists (goff (garray (nth i v u)), half_a_cell j (goff (garray (nth i v u))), t). split.
  - exists (nth i v u), j, t. split; [apply nth_In; lia|]. split; [rewrite (F2_length E); exact H2|]. split; [exact H3 | reflexivity].
  - apply key_eqb_iff. cbn [fst snd]. split; [exact E|]. split; [apply half_cong; exact E | reflexivity].
Qed.
Lemma pv_offs_match g o bs v v' : periodic_velocity g o bs v -> periodic_velocity g o bs v' -> Forall2 (fun u u' => off_eq (goff (garray u)) (goff (garray u'))) v v'.
Proof.
  intros H H'. pose proof (pv_len H) as L. pose proof (pv_len H') as L'. apply F2_nth_intro with (d := dgv) (d' := dgv); [lia|]. intros i Hi.
  destruct H as (_ & _ & Hf & _). destruct H' as (_ & _ & Hf' & _). eapply off_eq_trans; [apply Hf; apply nth_error_nth'; lia | apply off_eq_sym; apply Hf'; apply nth_error_nth'; lia].
Qed.
Lemma setting_transfer solve svd g o bs v v' tags fn tower : periodic_velocity g o bs v -> periodic_velocity g o bs v' -> learned_setting solve svd g v tags fn tower -> learned_setting solve svd g v' tags fn tower.
Proof.
  intros Hv Hv' (H1 & H2 & H3 & H4 & H5 & H6 & H7 & H8 & H9 & H10 & H11 & H12). pose proof (pv_len Hv) as L. pose proof (pv_len Hv') as L'.
  do 6 (split; [assumption|]). split; [intros ->; cbn in L'; lia|]. split; [exact H8|]. split.
  { intros u Hu. destruct Hv' as ((_ & HF) & _). rewrite Forall_forall in HF. destruct (HF u Hu) as (((_ & Hs & Ho) & _) & Hg). rewrite Hg in Hs, Ho. auto. }
  split; [exact H10|]. split; [|rewrite L', <- L; exact H12].
  intros k Hk. destruct (asked_match (pv_offs_match Hv Hv') Hk) as (k0 & Hk0 & E). rewrite <- (@fn_same fn H10 k0 k E). apply H11. exact Hk0.
Qed.
Lemma options_transfer g o bs v v' tags fn pm fc fp cc layout : by_value fn -> periodic_velocity g o bs v -> periodic_velocity g o bs v' ->
  options_fit (gshape g) (fun S => exists k, asked v tags k /\ fn k = S) pm fc fp cc layout -> options_fit (gshape g) (fun S => exists k, asked v' tags k /\ fn k = S) pm fc fp cc layout.
Proof.
  intros Hfn Hv Hv' (H1 & H2 & H3). assert (T : forall S, (exists k, asked v' tags k /\ fn k = S) -> exists k, asked v tags k /\ fn k = S).
  { intros S (k & Hk & <-). destruct (asked_match (pv_offs_match Hv Hv') Hk) as (k0 & Hk0 & E). exists k0. split; [exact Hk0 | apply (@fn_same fn Hfn k0 k E)]. }
  split; [exact H1|]. split; [intros E S HS; apply H2; auto|]. intros E. destruct (H3 E) as (A & B & C). split; [exact A|]. split; [exact B|]. intros E2. destruct (C E2) as (S & HS & HR). exists S. split; [intros S' HS'; apply HS; auto | exact HR].
Qed.
(* @prop C76 A run of any number of such steps, the interpolation being rebuilt from the state at every step, keeps the velocity divergence-free from the first step on and never changes the total of a component when the forcing exerts no net force. *)
Lemma learned_solver_run_lem : forall n t solve svd psolve g o bs v tags fn tower pm fuse_constraints fuse_patches constrain_with_conv layout density viscosity dt forcing,
  learned_setting solve svd g v tags fn tower -> options_fit (gshape g) (fun S => exists k, asked v tags k /\ fn k = S) pm fuse_constraints fuse_patches constrain_with_conv layout ->
  periodic_velocity g o bs v -> In tag_c tags -> In tag_u tags ->
  length o = gndim g -> explicit_tableau t -> (viscosity <> None -> density <> 0%R) -> solves_poisson g o psolve -> any_term g o bs forcing ->
  let step := modular_navier_stokes_model (fun convect f => semi_implicit_navier_stokes t density viscosity dt convect diffuse psolve f) forcing
      (learned_convection solve svd g dt tags fn tower pm fuse_constraints fuse_patches constrain_with_conv layout) [] in
  exists v', Nat.iter n (fun r => bind r step) (Ok v) = Ok v' /\ periodic_velocity g o bs v' /\
    ((0 < n)%nat -> exists d, divergence v' = Ok d /\ is_field d g o (fun _ => 0%R)) /\
    (no_net_force g o bs forcing -> forall i, momentum v' i = momentum v i).
Proof.
  intros n t solve svd psolve g o bs v tags fn tower pm fc fp cc layout density viscosity dt forcing Hset Hopt Hv Tc Tu Ho Ht Hden Hs Hf step.
  induction n as [|n (v1 & E & P & _ & M)].
  - exists v. split; [reflexivity|]. split; [exact Hv|]. split; [lia | reflexivity].
  - pose proof (setting_transfer Hv P Hset) as Hs1. assert (Hfn : by_value fn) by apply Hset. pose proof (options_transfer Hfn Hv P Hopt) as Ho1.
    destruct (@learned_solver_step_lem t solve svd psolve g o bs v1 tags fn tower pm fc fp cc layout density viscosity dt forcing Hs1 P Tc Tu Ho1 Ho Ht Hden Hs Hf) as (v2 & d & E2 & P2 & Ed & Z & M2).
    exists v2. split; [cbn [Nat.iter nat_rect]; change (bind (Nat.iter n (fun r => bind r step) (Ok v)) step = Ok v2); rewrite E; exact E2|]. split; [exact P2|]. split; [intros _; exists d; auto|].
    intros Hz i. rewrite (M2 Hz i). apply M. exact Hz.
Qed.

(** ** examples: a grid of 3 x 4 unit cells, a network that returns anything, stencils of 2 x 2 cells *)
Definition q34g : grid := mkgrid [3%nat; 4%nat] [1%R; 1%R] [(0%R, 3%R); (0%R, 4%R)].
Definition q34v : list gvar :=
  [mkgv (mkga (mkarr [3%nat; 4%nat] (fun ix => if nth 0 ix 0 =? 0 then 1%R else 0%R)) [1%Q; (1 # 2)%Q] q34g) (periodic_bc 2);
   mkgv (mkga (mkarr [3%nat; 4%nat] (fun ix => if nth 1 ix 0 =? 2 then 3%R else 0%R)) [(1 # 2)%Q; 1%Q] q34g) (periodic_bc 2)].
Lemma q34_pv : periodic_velocity q34g half2 p34bs q34v.
Proof.
  split; [|split; [|split; [|reflexivity]]].
  - split; [reflexivity|]. repeat constructor; (lia || lra).
  - repeat constructor.
  - intros [|[|[|i]]] u H; simpl in H; try discriminate; injection H as <-; repeat constructor.
Qed.
Lemma q34_setting F w : periodic_velocity q34g half2 p34bs w -> learned_setting cramer (cand_svd []) q34g w [tag_c; tag_u] (isotropic_sizes 2 2) (li_tower F) /\
  options_fit (gshape q34g) (fun S => exists k, asked w [tag_c; tag_u] k /\ isotropic_sizes 2 2 k = S) PRoll true false false None.
Proof.
  intros Hw. pose proof (pv_len Hw) as Lw. change (gndim q34g) with 2%nat in Lw. split.
  - split; [exact cramer_correct|]. split; [exact cramer_small|]. split; [apply cand_svd_correct|]. split; [exists 1%R; split; [lra | reflexivity]|]. split; [cbn; lia|]. split; [intros [|[|i]] Hi; cbn in *; lia|].
    split; [intros ->; discriminate|]. split; [discriminate|]. split.
    { intros u Hu. destruct Hw as ((_ & HF) & _). rewrite Forall_forall in HF. destruct (HF u Hu) as (((_ & Hs & Ho) & _) & Hg). rewrite Hg in Hs, Ho. auto. }
    split; [intros o o' p p' t _ _; reflexivity|]. split; [|].
    + intros k _. split; [reflexivity|]. split; [intros [|[|i]] Hi; cbn in *; lia | cbn; lia].
    + intros n x Hx. eexists; split; [reflexivity|]. unfold channels_last in *. cbn [shp]. rewrite Hx. rewrite removelast_last. reflexivity.
  - split; [discriminate|]. split; [discriminate|]. intros _. split; [discriminate|]. split; discriminate.
Qed.
Lemma q34_solver tpu eigh : solves_poisson q34g half2 (fun v _ b => pressure_solve_fast_diag tpu eigh (1 / 1000) v (Some b) (Some Fft)).
Proof.
  apply (@default_pressure_solver_lem tpu eigh (1 / 1000) (Some Fft) q34g); [cbn; lia | repeat split; repeat constructor; (lia || lra) | lra | | intros; exact I].
  intros [|[|a]] Ha; cbn in Ha; [| | lia]; (split; [cbn; lia|]); unfold hstep; cbn; lra.
Qed.
(* @ex *)
Lemma learned_convection_flux_form_ex_lem : forall F, learned_setting cramer (cand_svd []) q34g q34v [tag_c; tag_u] (isotropic_sizes 2 2) (li_tower F) /\ periodic_velocity q34g half2 p34bs q34v /\
  options_fit (gshape q34g) (fun S => exists k, asked q34v [tag_c; tag_u] k /\ isotropic_sizes 2 2 k = S) PRoll true false false None.
Proof. intros F. destruct (q34_setting F q34_pv) as (A & B). split; [exact A|]. split; [exact q34_pv | exact B]. Qed.
(* @ex *)
Lemma learned_convection_no_net_force_ex_lem : forall F, exists l x, learned_convection cramer (cand_svd []) q34g 1 [tag_c; tag_u] (isotropic_sizes 2 2) (li_tower F) PRoll true false false None q34v q34v = Ok l /\ nth_error l 1 = Some x /\ total (gdata x) = 0%R.
Proof.
  intros F. destruct (q34_setting F q34_pv) as (A & B).
  destruct (@learned_convection_no_net_force_lem _ _ _ _ _ _ _ _ _ _ _ _ _ _ 1%R A q34_pv (or_introl eq_refl) (or_intror (or_introl eq_refl)) B) as (HA & HN).
  destruct (HA q34v q34_pv) as (l & G & E & (L & _)). change (length q34v) with 2%nat in L. destruct l as [|x0 [|x [|]]]; try (cbn in L; lia). exists [x0; x], x. split; [exact E|]. split; [reflexivity|].
  eapply HN; [exact q34_pv | exact E | ]. instantiate (1 := 1%nat). reflexivity.
Qed.
(* @ex *)
Lemma learned_solver_step_ex_lem : forall tpu eigh F, exists v', modular_navier_stokes_model (fun convect f => semi_implicit_navier_stokes (mktab [[1 / 2]; [0; 1 / 2]; [0; 0; 1]] [1 / 6; 1 / 3; 1 / 3; 1 / 6])%R 2 (Some 3%R) 1 convect diffuse (fun v _ b => pressure_solve_fast_diag tpu eigh (1 / 1000) v (Some b) (Some Fft)) f) push
      (learned_convection cramer (cand_svd []) q34g 1 [tag_c; tag_u] (isotropic_sizes 2 2) (li_tower F) PRoll true false false None) [] q34v = Ok v' /\ periodic_velocity q34g half2 p34bs v'.
Proof.
  intros tpu eigh F. destruct (q34_setting F q34_pv) as (A & B).
  destruct (@learned_solver_step_lem (mktab [[1 / 2]; [0; 1 / 2]; [0; 0; 1]] [1 / 6; 1 / 3; 1 / 3; 1 / 6])%R _ _ (fun v _ b => pressure_solve_fast_diag tpu eigh (1 / 1000) v (Some b) (Some Fft)) _ _ _ _ _ _ _ _ _ _ _ _ 2%R (Some 3%R) 1%R push A q34_pv (or_introl eq_refl) (or_intror (or_introl eq_refl)) B) as (v' & d & E & P & _).
  - reflexivity.
  - exact rk4_explicit.
  - intros _; lra.
  - apply q34_solver.
  - intros w Hw. exact (push_fields Hw).
  - exists v'. split; [exact E | exact P].
Qed.
(* @ex *)
Lemma learned_solver_run_ex_lem : forall tpu eigh F, (forall w, periodic_velocity q34g half2 p34bs w -> learned_setting cramer (cand_svd []) q34g w [tag_c; tag_u] (isotropic_sizes 2 2) (li_tower F) /\
     options_fit (gshape q34g) (fun S => exists k, asked w [tag_c; tag_u] k /\ isotropic_sizes 2 2 k = S) PRoll true false false None) /\ periodic_velocity q34g half2 p34bs q34v /\
  solves_poisson q34g half2 (fun v _ b => pressure_solve_fast_diag tpu eigh (1 / 1000) v (Some b) (Some Fft)) /\ any_term q34g half2 p34bs push.
Proof. intros tpu eigh F. split; [intros w Hw; apply (q34_setting F Hw)|]. split; [exact q34_pv|]. split; [apply q34_solver|]. intros w Hw. exact (push_fields Hw). Qed.
