(** * Flux-limited learned interpolation (C78) *)
From Verif Require Import Prelude NdArr Grids_model Spec SpecDiff SpecNS SpecML LinAlg Cplx FastDiag_model Laplacian_model PressureSolve_model Boundaries_model BoundariesPeriodic FD_model Interp_model Pressure_model Advection_model ArrayUtils_model TimeStep_model Diffusion_model Equations_model PRep FDProofs FDProps InterpProps ArrayUtilsProps PressureProps PressureSolveProps AdvectionProofs AdvectionProps EquationsProps EquationsMoreProps Networks_model NetworksProps LearnedProps.
From Verif Require StencilLayerProps.
From Verif Require Import Tiling_model SpecTile Stencil_model SpecStencil Viscosities_model LearnedInterp_model SpecLInt LearnedInterpDict StencilLayerProps LearnedInterpEx LearnedInterpProps LearnedSolver_model SpecLSolve LearnedSolverProps FluxLimit_model SpecLimit FluxLimitProps.
Set Implicit Arguments.
Local Open Scope Z_scope.

(* @prop C78 The flux-limited learned interpolation in use: advecting component j of any staggered periodic velocity w with it, the learned weights being computed from the state v by any network, returns minus the net outflow of the limited value times the linearly interpolated velocity, where the limited value is the upwind value moved towards an average of the component over a stencil around the face with weights that sum to one. Its total is zero whatever the network. *)
Lemma limited_learned_advection_lem : forall solve svd g o bs v tags fn tower, learned_setting solve svd g v tags fn tower -> periodic_velocity g o bs v -> In None tags ->
  exists W, averaging_weights v tags fn W /\
  forall pm fuse_constraints fuse_patches constrain_with_conv layout phi dt w j u u0, options_fit (gshape g) (fun S => exists k, asked v tags k /\ fn k = S) pm fuse_constraints fuse_patches constrain_with_conv layout ->
    periodic_velocity g o bs w -> nth_error w j = Some u -> nth_error v j = Some u0 ->
    exists x, modular_advection (transformed_module (learned_module solve svd tags fn tower pm fuse_constraints fuse_patches constrain_with_conv layout) (tvd_limiter_transformation phi)) linear_module g dt v u w dt = Ok x /\
      is_field x g (goff (garray u)) (fun ix => - outflow g (fun i jx =>
        let k := (goff (garray u0), half_a_cell i (goff (garray u0)), None) in
        limited_to phi u i (face_velocity u w i jx) (stencil_average (gshape g) (fn k) (W k) (vval w j) jx) jx * face_velocity u w i jx) ix)%R /\
      total (gdata x) = 0%R.
Proof.
  intros solve svd g o bs v tags fn tower Hset Hv Tn. destruct (learned_interpolation_averages_lem Hset) as (W & HW1 & HW2). exists W. split; [exact HW1|].
  intros pm fc fp cc layout phi dt w j u u0 Hop Hw Hu Hu0. destruct (HW2 pm fc fp cc layout Hop) as (T & ET & HC).
  assert (Hd : (0 < gndim g)%nat) by apply Hset. pose proof (pv_len Hv) as Lv. pose proof (pv_len Hw) as Lw.
  assert (Hj : (j < gndim g)%nat) by (rewrite <- Lw; apply nth_error_Some; congruence).
  pose proof Hw as (Pw & Hh & Hfa & _). destruct (periodic_vec_nth Pw Hj) as (Hp & Hpg). rewrite (nth_error_nth _ _ dgv Hu) in Hp, Hpg.
  assert (Oj : off_eq (goff (garray u)) (offs j (1 # 2) o)) by (apply Hfa; exact Hu).
  set (K := fun i => (goff (garray u0), half_a_cell i (goff (garray u0)), @None nat)).
  destruct (@limited_modular_advection_lem (learned_module solve svd tags fn tower pm fc fp cc layout) (tagged T None) g dt v phi u w dt
     (fun i => stencil_average (gshape g) (fn (K i)) (W (K i)) (vval w j))) as (x & E & P & Tt); auto.
  - unfold learned_module. rewrite ET. reflexivity.
  - intros av i Hi _ o' Ho'. unfold tagged, answers.
    destruct (@ls_key solve svd g o bs v tags fn tower Hset Hv W T HC j i None w o' Hj Hi Tn Hw) as (r & Er & _ & Pr).
    { eapply off_eq_trans; [exact Ho'|]. apply off_eq_offs; [exact Oj | reflexivity]. }
    cbv zeta in Pr. rewrite (nth_error_nth _ _ dgv Hu0) in Pr. rewrite (nth_error_nth _ _ dgv Hu) in Er. exists r. split; [exact Er|]. rewrite Hpg. exact Pr.
  - exists x. split; [exact E|]. split; [|exact Tt]. eapply prep_ext; [|exact P]. intros ix Hix. cbv beta. f_equal. unfold outflow. apply nsum_ext. intros i Hi. cbv zeta.
    assert (HLx : length ix = length (gshape g)) by (apply inb_length; exact Hix).
    unfold stencil_average. rewrite !wrap_wrap by (unfold prev; rewrite ?shiftix_length; exact HLx). reflexivity.
Qed.
(* @ex *)
Lemma limited_learned_advection_ex_lem : forall F, learned_setting cramer (cand_svd []) q34g q34v [None] (isotropic_sizes 2 2) (li_tower F) /\ periodic_velocity q34g half2 p34bs q34v /\
  options_fit (gshape q34g) (fun S => exists k, asked q34v [None] k /\ isotropic_sizes 2 2 k = S) PRoll true false false None.
Proof.
  intros F. pose proof q34_pv as Hw. pose proof (pv_len Hw) as Lw. change (gndim q34g) with 2%nat in Lw. split; [|split; [exact Hw|]].
  - split; [exact cramer_correct|]. split; [exact cramer_small|]. split; [apply cand_svd_correct|]. split; [exists 1%R; split; [lra | reflexivity]|]. split; [cbn; lia|]. split; [intros [|[|i]] Hi; cbn in *; lia|].
    split; [discriminate|]. split; [discriminate|]. split.
    { intros u Hu. destruct Hw as ((_ & HF) & _). rewrite Forall_forall in HF. destruct (HF u Hu) as (((_ & Hs & Ho) & _) & Hg). rewrite Hg in Hs, Ho. auto. }
    split; [intros o o' p p' t _ _; reflexivity|]. split; [|].
    + intros k _. split; [reflexivity|]. split; [intros [|[|i]] Hi; cbn in *; lia | cbn; lia].
    + intros n x Hx. eexists; split; [reflexivity|]. unfold channels_last in *. cbn [shp]. rewrite Hx. rewrite removelast_last. reflexivity.
  - split; [discriminate|]. split; [discriminate|]. intros _. split; [discriminate|]. split; discriminate.
Qed.
