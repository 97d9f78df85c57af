(** * C64: implicit diffusion, independence of the solver, translations, examples *)
From Verif Require Import Prelude NdArr Grids_model Spec SpecLin SpecDiag SpecDiff LinAlg Cplx Boundaries_model BoundariesPeriodic FD_model LaplacianProps PRep FDProofs FDProps WallBC WallBCProps ImposeProps WallFD Pressure_model PressureProps WallFDProps ProjectionProps Interp_model InterpProofs InterpProps UpwindProps TvdProps Advection_model AdvectionProofs AdvectionProps FastDiag_model Laplacian_model PressureSolve_model PressureSolveProps Diffusion_model DiffusionProps ImplicitDiffusionProps QRProps TimeStep_model Equations_model SpecNS EquationsProps EquationsMoreProps LearnedProps SpecRollout RolloutProps SpecSym SymBase SymEx SymProps SymVelProps SymStepProps.
Set Implicit Arguments.
Local Open Scope Z_scope.

Lemma copied_nth2 n p m l l' i : relabelling n p -> copied_fields n p m l l' -> length l = n -> length l' = n -> (i < n)%nat -> copied_values n p m (pval (nth (to_axis p i) l dga)) (pval (nth i l' dga)).
Proof. intros Hp H L L' Hi. pose proof (Hp i Hi) as (A & _). apply (H i _ _ Hi); apply nth_error_nth'; lia. Qed.
(** ** implicit diffusion *)
Lemma diffusion_rel g g' p s o o' bs bs' k c c' v v' w w' : copied_grid p s g g' -> (0 < s)%R -> (0 < gndim g)%nat -> copied_offset (gndim g) p o o' ->
  (c' = s * s * c)%R -> (0 <= c)%R -> vrel g g' p o o' bs bs' k v v' -> Forall2 (implicitly_diffused c) v w -> Forall2 (implicitly_diffused c') v' w' -> vrel g g' p o o' bs bs' k w w'.
Proof.
  intros Hg Hs Hd Hoo Ec Hc (Hv & Hv' & R) D D'. pose proof (proj1 Hg) as Hn. pose proof (proj1 (proj2 Hg)) as Hp.
  assert (Hd' : (0 < gndim g')%nat) by lia. assert (Ho' : length o' = gndim g') by (rewrite Hn; apply Hoo).
  pose proof (pv_wfg Hd Hv) as Hw. pose proof (pv_wfg Hd' Hv') as Hw'.
  destruct (@diffused_pv g o bs Hd (proj1 Hoo) c v w Hv D) as (Pw & Ew). destruct (@diffused_pv g' o' bs' Hd' Ho' c' v' w' Hv' D') as (Pw' & Ew').
  split; [exact Pw|]. split; [exact Pw'|]. intros i Hi. pose proof (Hp i Hi) as (Ti & _). assert (Hi' : (i < gndim g')%nat) by lia.
  set (G := fun ix => (k * vval w (to_axis p i) (under (gndim g) p ix))%R). assert (RG : copied_values (gndim g) p k (vval w (to_axis p i)) G) by (intros ix _; reflexivity).
  assert (PG : periodic (gshape g') G) by exact (rel_periodic Hg RG (periodic_vval (proj1 Pw) Ti)).
  assert (Z : forall ix, inb (gshape g') ix -> (vval w' i ix - G ix = 0)%R).
  { apply (@helmholtz_zero g' c' (fun ix => vval w' i ix - G ix)%R); [apply Hw' | rewrite Ec; apply Rmult_le_pos; [|exact Hc]; apply Rmult_le_pos; lra | |].
    - intros ix HL. rewrite (periodic_vval (proj1 Pw') Hi' ix HL), (PG ix HL). reflexivity.
    - intros ix Hix. pose proof (inb_length _ _ Hix) as HL. assert (HLn : length ix = gndim g) by (rewrite <- Hn; exact HL). rewrite lapF_minus.
      pose proof (Ew' i ix Hi' HL) as E1. pose proof (Ew _ (under (gndim g) p ix) Ti (under_length _ _ _)) as E2. pose proof (R i Hi ix HLn) as E3.
      pose proof (rel_lapF Hg Hs Hw RG ix HLn) as E4. fold (G ix) in E4 |- *. rewrite E4. rewrite E3, <- E2 in E1. unfold G.
      replace (vval w' i ix - k * vval w (to_axis p i) (under (gndim g) p ix) - c' * (lapF g' (vval w' i) ix - k / (s * s) * lapF g (vval w (to_axis p i)) (under (gndim g) p ix)))%R
        with ((vval w' i ix - c' * lapF g' (vval w' i) ix) - k * (vval w (to_axis p i) (under (gndim g) p ix) - c' / (s * s) * lapF g (vval w (to_axis p i)) (under (gndim g) p ix)))%R by (field; lra).
      rewrite E1, Ec. field. lra. }
  intros ix HL. assert (E : (vval w' i ix - G ix = 0)%R).
  { apply (@periodic_ext_all (gshape g') (fun ix => vval w' i ix - G ix)%R (fun _ => 0%R)); auto; [apply Hw' | | intros jx _; reflexivity | change (length ix = gndim g'); lia].
    intros jx HLj. rewrite (periodic_vval (proj1 Pw') Hi' jx HLj), (PG jx HLj). reflexivity. }
  unfold G in E. lra.
Qed.

Lemma implicit_rel : forall g g' p s o o' bs bs' k dt dt' rho rho' nu nu' convect convect' forcing forcing' ds ds' solve solve' v v',
  copied_grid p s g g' -> (0 < s)%R -> (0 < gndim g)%nat -> copied_offset (gndim g) p o o' -> (0 < k)%R -> (dt' * k = dt * s)%R ->
  (forcing <> None -> rho <> 0%R /\ rho' <> 0%R) -> (nu' = k * s * nu)%R -> (0 <= dt * nu)%R ->
  treat_alike g g' o o' bs bs' p k (k * k / s) convect convect' -> optional_alike g g' o o' bs bs' p k (k * k / s * (rho' / rho)) forcing forcing' ->
  solves_poisson g o solve -> solves_poisson g' o' solve' ->
  (forall u, periodic_velocity g o bs u -> exists u', ds u nu dt = Ok u' /\ Forall2 (implicitly_diffused (dt * nu)) u u') ->
  (forall u, periodic_velocity g' o' bs' u -> exists u', ds' u nu' dt' = Ok u' /\ Forall2 (implicitly_diffused (dt' * nu')) u u') ->
  vrel g g' p o o' bs bs' k v v' ->
  exists w w', implicit_diffusion_navier_stokes rho nu dt convect ds solve forcing v = Ok w /\
    implicit_diffusion_navier_stokes rho' nu' dt' convect' ds' solve' forcing' v' = Ok w' /\ vrel g g' p o o' bs bs' k w w'.
Proof.
  intros g g' p s o o' bs bs' k dt dt' rho rho' nu nu' convect convect' forcing forcing' ds ds' solve solve' v v' Hg Hs Hd Hoo Hk Hdt Hrf Hnu Hpos Hcv Hf Hsol Hsol' Hds Hds' (Hv & Hv' & RV).
  pose proof (proj1 Hg) as Hn. pose proof (proj1 (proj2 Hg)) as Hp. assert (Hd' : (0 < gndim g')%nat) by lia. assert (Ho' : length o' = gndim g') by (rewrite Hn; apply Hoo).
  pose proof (pv_len Hv) as LV. pose proof (pv_len Hv') as LV'.
  destruct (Hcv v v' Hv Hv' RV) as (lc & lc' & C & C' & Ec & Ec' & Fc & Fc' & Rc).
  assert (HF : exists Fo Fo', (forall f, forcing = Some f -> exists lf, f v = Ok lf /\ fields_at g v lf Fo) /\ (forall f, forcing' = Some f -> exists lf, f v' = Ok lf /\ fields_at g' v' lf Fo') /\
     (forall i, (i < gndim g)%nat -> periodic (gshape g) (Fo i)) /\
     (forall i, (i < gndim g)%nat -> copied_values (gndim g) p (k * k / s) (fun ix => match forcing with Some _ => Fo (to_axis p i) ix / rho | None => 0 end)%R
        (fun ix => match forcing' with Some _ => Fo' i ix / rho' | None => 0 end)%R)).
  { destruct forcing as [f|], forcing' as [f'|]; cbn [optional_alike] in Hf; try contradiction.
    - destruct (Hf v v' Hv Hv' RV) as (lf & lf' & F & F' & Ef & Ef' & Ff & Ff' & Rf).
      exists (fun i => pval (nth i lf dga)), (fun i => pval (nth i lf' dga)).
      split; [intros f0 E0; injection E0 as <-; exists lf; split; [exact Ef | apply (fields_at_pval Ff)]|].
      split; [intros f0 E0; injection E0 as <-; exists lf'; split; [exact Ef' | apply (fields_at_pval Ff')]|].
      split; [intros i Hi; apply (fields_pval Ff); lia|].
      assert (L1 : length lf = gndim g) by (rewrite (proj1 Ff); exact LV). assert (L2 : length lf' = gndim g) by (rewrite (proj1 Ff'), LV'; exact Hn).
      intros i Hi ix HL. rewrite (@copied_nth2 (gndim g) p _ lf lf' i Hp Rf L1 L2 Hi ix HL).
      destruct (Hrf ltac:(discriminate)) as (R1 & R2). field. repeat split; auto; lra.
    - exists (fun _ _ => 0%R), (fun _ _ => 0%R). split; [discriminate|]. split; [discriminate|]. split; [intros i _ ix _; reflexivity|]. intros i Hi ix HL. ring. }
  destruct HF as (Fo & Fo' & HF & HF' & PF & RF).
  destruct (@implicit_explicit_part g o bs rho nu dt convect ds solve forcing v lc (fun i => pval (nth i lc dga)) Fo Hd (proj1 Hoo) Hv Ec (fields_at_pval Fc) HF) as (star & Hst & Vst & E).
  destruct (@implicit_explicit_part g' o' bs' rho' nu' dt' convect' ds' solve' forcing' v' lc' (fun i => pval (nth i lc' dga)) Fo' Hd' Ho' Hv' Ec' (fields_at_pval Fc') HF') as (star' & Hst' & Vst' & E').
  assert (RS : vrel g g' p o o' bs bs' k star star').
  { refine (@vrel_intro g g' p s o o' bs bs' Hg Hd Hoo k v v' star star' _ _ Hv Hv' (pv_len Hst) _ _ _ _ _).
    - rewrite <- Hn. exact (pv_len Hst').
    - intros i Hi. split; [apply (pv_bc Hst Hi)|]. eapply prep_off; [apply (pv_off Hd (proj1 Hoo) Hv Hi) | exact (Vst i Hi)].
    - intros i Hi. assert (Hi' : (i < gndim g')%nat) by lia. split; [apply (pv_bc Hst' Hi')|]. eapply prep_off; [apply (pv_off Hd' Ho' Hv' Hi') | exact (Vst' i Hi')].
    - intros i Hi ix HL. cbv beta. destruct (@fields_pval g v lc C i Fc ltac:(lia)) as (_ & P). rewrite (P ix HL), (periodic_vval (proj1 Hv) Hi ix HL).
      destruct forcing; [rewrite (PF i Hi ix HL)|]; reflexivity.
    - assert (L1 : length lc = gndim g) by (rewrite (proj1 Fc); exact LV). assert (L2 : length lc' = gndim g) by (rewrite (proj1 Fc'), LV'; exact Hn).
      intros i Hi ix HL. cbv beta. rewrite (RV i Hi ix HL), (@copied_nth2 (gndim g) p _ lc lc' i Hp Rc L1 L2 Hi ix HL). pose proof (RF i Hi ix HL) as ER. cbv beta in ER. rewrite ER.
      rewrite <- Rmult_plus_distr_l. replace (dt' * (k * k / s * (pval (nth (to_axis p i) lc dga) (under (gndim g) p ix) + match forcing with Some _ => Fo (to_axis p i) (under (gndim g) p ix) / rho | None => 0 end)))%R
        with (dt' * k * (k / s) * (pval (nth (to_axis p i) lc dga) (under (gndim g) p ix) + match forcing with Some _ => Fo (to_axis p i) (under (gndim g) p ix) / rho | None => 0 end))%R by (unfold Rdiv; ring).
      rewrite Hdt. field. lra. }
  destruct (@projection_rel g g' p s o o' bs bs' Hg Hs Hd Hoo k solve solve' star star' Hsol Hsol' RS) as (vp & vp' & Ep & Ep' & RP).
  destruct (Hds vp (proj1 RP)) as (w & Ew & Dw). destruct (Hds' vp' (proj1 (proj2 RP))) as (w' & Ew' & Dw').
  exists w, w'. split; [rewrite E, Ep; exact Ew|]. split; [rewrite E', Ep'; exact Ew'|].
  apply (@diffusion_rel g g' p s o o' bs bs' k (dt * nu) (dt' * nu') vp vp' w w' Hg Hs Hd Hoo); auto.
  rewrite Hnu. replace (dt' * (k * s * nu))%R with (dt' * k * s * nu)%R by ring. rewrite Hdt. ring.
Qed.

(* @prop C64 The same for implicit_diffusion_navier_stokes (nonnegative dt * viscosity, viscosity k s times as large), with any exact diffusion and pressure solvers on either side: after every number of steps the two velocities are k times copies of each other. *)
Lemma implicit_diffusion_of_copies_lem : forall steps g g' p s o o' bs bs' k dt dt' rho rho' nu nu' convect convect' forcing forcing' ds ds' solve solve' v v',
  copied_grid p s g g' -> (0 < s)%R -> (0 < gndim g)%nat -> copied_offset (gndim g) p o o' -> (0 < k)%R -> (dt' * k = dt * s)%R ->
  (forcing <> None -> rho <> 0%R /\ rho' <> 0%R) -> (nu' = k * s * nu)%R -> (0 <= dt * nu)%R ->
  treat_alike g g' o o' bs bs' p k (k * k / s) convect convect' -> optional_alike g g' o o' bs bs' p k (k * k / s * (rho' / rho)) forcing forcing' ->
  solves_poisson g o solve -> solves_poisson g' o' solve' ->
  (forall u, periodic_velocity g o bs u -> exists u', ds u nu dt = Ok u' /\ Forall2 (implicitly_diffused (dt * nu)) u u') ->
  (forall u, periodic_velocity g' o' bs' u -> exists u', ds' u nu' dt' = Ok u' /\ Forall2 (implicitly_diffused (dt' * nu')) u u') ->
  periodic_velocity g o bs v -> periodic_velocity g' o' bs' v' -> copied_velocity (gndim g) p k v v' ->
  exists w w', iterate steps (implicit_diffusion_navier_stokes rho nu dt convect ds solve forcing) v = Ok w /\
    iterate steps (implicit_diffusion_navier_stokes rho' nu' dt' convect' ds' solve' forcing') v' = Ok w' /\
    periodic_velocity g o bs w /\ periodic_velocity g' o' bs' w' /\ copied_velocity (gndim g) p k w w'.
Proof.
  intros steps g g' p s o o' bs bs' k dt dt' rho rho' nu nu' convect convect' forcing forcing' ds ds' solve solve' v v' Hg Hs Hd Hoo Hk Hdt Hrf Hnu Hpos Hcv Hf Hsol Hsol' Hds Hds' Hv Hv' R.
  assert (H : vrel g g' p o o' bs bs' k v v') by (split; [exact Hv|]; split; [exact Hv' | exact R]). clear Hv Hv' R. revert v v' H.
  induction steps as [|m IH]; intros v v' H; cbn [iterate].
  - exists v, v'. split; [reflexivity|]. split; [reflexivity|]. exact H.
  - destruct (@implicit_rel g g' p s o o' bs bs' k dt dt' rho rho' nu nu' convect convect' forcing forcing' ds ds' solve solve' v v' Hg Hs Hd Hoo Hk Hdt Hrf Hnu Hpos Hcv Hf Hsol Hsol' Hds Hds' H) as (w & w' & E & E' & HW).
    rewrite E, E'. cbn [bind]. apply IH. exact HW.
Qed.

(** ** translations of one problem *)
Lemma translation_grid L g : copied_grid (translation L) 1 g g.
Proof.
  split; [reflexivity|]. split; [intros a Ha; cbn; auto|]. intros a Ha. cbn [translation to_axis]. split; [reflexivity | ring].
Qed.
Lemma translation_offset n L o : length o = n -> copied_offset n (translation L) o o.
Proof. intros H. split; [exact H|]. split; [exact H|]. intros a Ha. reflexivity. Qed.
Lemma under_still n ix : length ix = n -> under n (translation (fun _ => 0)) ix = ix.
Proof.
  intros HL. apply (list_ext_nth 0); [rewrite under_length; auto|]. intros b Hb. rewrite under_length in Hb. rewrite under_nth by auto. cbn. lia.
Qed.
Lemma same_velocity g o bs v v' : (0 < gndim g)%nat -> length o = gndim g -> periodic_velocity g o bs v -> periodic_velocity g o bs v' -> copied_velocity (gndim g) (translation (fun _ => 0)) 1 v v' ->
  Forall2 (fun u u' => gbc u = gbc u' /\ same_field (garray u) (garray u')) v v'.
Proof.
  intros Hd Ho Hv Hv' R. pose proof (pv_len Hv) as L. pose proof (pv_len Hv') as L'.
  apply ArrayUtilsProps.Forall2_of_nth; [lia|]. intros i x y Ex Ey. assert (Hi : (i < gndim g)%nat) by (rewrite <- L; apply nth_error_Some; congruence).
  rewrite <- (nth_error_nth _ _ dgv Ex), <- (nth_error_nth _ _ dgv Ey).
  split; [rewrite (pv_bc Hv Hi), (pv_bc Hv' Hi); reflexivity|].
  destruct (pv_prep Hd Ho Hv Hi) as (A & B & C & D). destruct (pv_prep Hd Ho Hv' Hi) as (A' & B' & C' & D').
  split; [congruence|]. split; [eapply off_eq_trans; [exact B | apply off_eq_sym; exact B']|]. split; [congruence|].
  intros ix Hix. rewrite C in Hix. rewrite D, D' by auto. rewrite (R i Hi ix (inb_length _ _ Hix)). rewrite under_still by (apply inb_length in Hix; exact Hix). cbn [translation to_axis]. ring.
Qed.

(* @prop C64 The velocity computed does not depend on the pressure solver: with two exact solvers of the Poisson problem, any number of steps of semi_implicit_navier_stokes (any explicit tableau, default convection, any forcing that depends on the values only) gives the same fields: same grid, offsets, boundary conditions and values. *)
Lemma solver_does_not_matter_lem : forall steps t g o bs dt rho nu forcing solve solve' v,
  explicit_tableau t -> (0 < gndim g)%nat -> length o = gndim g -> (nu <> None \/ forcing <> None -> rho <> 0%R) ->
  optional_alike g g o o bs bs (translation (fun _ => 0)) 1 1 forcing forcing ->
  solves_poisson g o solve -> solves_poisson g o solve' -> periodic_velocity g o bs v ->
  exists w w', iterate steps (semi_implicit_navier_stokes t rho nu dt (default_convect dt) diffuse solve forcing) v = Ok w /\
    iterate steps (semi_implicit_navier_stokes t rho nu dt (default_convect dt) diffuse solve' forcing) v = Ok w' /\
    Forall2 (fun u u' => gbc u = gbc u' /\ same_field (garray u) (garray u')) w w'.
Proof.
  intros steps t g o bs dt rho nu forcing solve solve' v Ht Hd Ho Hrho Hf Hsol Hsol' Hv.
  destruct (@semi_implicit_of_copies_lem steps t g g (translation (fun _ => 0)) 1 o o bs bs 1 dt dt rho rho nu nu (default_convect dt) (default_convect dt) forcing forcing solve solve' v v) as (w & w' & E & E' & P & P' & R); auto; try lra.
  - apply translation_grid.
  - apply translation_offset; exact Ho.
  - destruct nu; cbn; [ring | exact I].
  - apply (@convection_treats_copies_alike_lem g g o o bs bs (translation (fun _ => 0)) 1 1 dt dt (translation_grid _ _) Rlt_0_1 Hd (@translation_offset _ _ _ Ho) Rlt_0_1). ring.
  - destruct forcing as [f|]; [|exact I]. cbn [optional_alike] in Hf |- *. intros x x' Hx Hx' Rx. destruct (Hf x x' Hx Hx' Rx) as (l & l' & F & F' & A & B & C & D & G).
    exists l, l', F, F'. do 4 (split; [assumption|]). replace (1 * 1 / 1 * (rho / rho))%R with 1%R; [exact G|]. field. apply Hrho. right. discriminate.
  - intros i Hi ix HL. rewrite under_still by exact HL. cbn [translation to_axis]. ring.
  - exists w, w'. split; [exact E|]. split; [exact E'|]. apply (same_velocity Hd Ho P P' R).
Qed.

(* @prop C64 Translation invariance: moving the initial velocity by any number of cells along every axis moves the solution of semi_implicit_navier_stokes (any explicit tableau, default convection, forcing that is itself translation invariant, any exact pressure solver) by the same, after every number of steps. *)
Lemma solution_moves_with_the_data_lem : forall steps t g o bs dt rho nu forcing solve L v v',
  explicit_tableau t -> (0 < gndim g)%nat -> length o = gndim g -> (nu <> None \/ forcing <> None -> rho <> 0%R) ->
  optional_alike g g o o bs bs (translation L) 1 1 forcing forcing ->
  solves_poisson g o solve -> periodic_velocity g o bs v -> periodic_velocity g o bs v' ->
  (forall i ix, (i < gndim g)%nat -> length ix = gndim g -> vval v' i ix = vval v i (subix L ix)) ->
  exists w w', iterate steps (semi_implicit_navier_stokes t rho nu dt (default_convect dt) diffuse solve forcing) v = Ok w /\
    iterate steps (semi_implicit_navier_stokes t rho nu dt (default_convect dt) diffuse solve forcing) v' = Ok w' /\
    forall i ix, (i < gndim g)%nat -> length ix = gndim g -> vval w' i ix = vval w i (subix L ix).
Proof.
  intros steps t g o bs dt rho nu forcing solve L v v' Ht Hd Ho Hrho Hf Hsol Hv Hv' R0.
  assert (Su : forall ix, length ix = gndim g -> subix L ix = under (gndim g) (translation L) ix) by (intros ix HL; unfold subix, under; rewrite HL; reflexivity).
  destruct (@semi_implicit_of_copies_lem steps t g g (translation L) 1 o o bs bs 1 dt dt rho rho nu nu (default_convect dt) (default_convect dt) forcing forcing solve solve v v') as (w & w' & E & E' & P & P' & R); auto; try lra.
  - apply translation_grid.
  - apply translation_offset; exact Ho.
  - destruct nu; cbn; [ring | exact I].
  - apply (@convection_treats_copies_alike_lem g g o o bs bs (translation L) 1 1 dt dt (translation_grid _ _) Rlt_0_1 Hd (@translation_offset _ _ _ Ho) Rlt_0_1). ring.
  - destruct forcing as [f|]; [|exact I]. cbn [optional_alike] in Hf |- *. intros x x' Hx Hx' Rx. destruct (Hf x x' Hx Hx' Rx) as (l & l' & F & F' & A & B & C & D & G).
    exists l, l', F, F'. do 4 (split; [assumption|]). replace (1 * 1 / 1 * (rho / rho))%R with 1%R; [exact G|]. field. apply Hrho. right. discriminate.
  - intros i Hi ix HL. rewrite R0 by auto. rewrite Su by exact HL. cbn [translation to_axis]. ring.
  - exists w, w'. split; [exact E|]. split; [exact E'|]. intros i ix Hi HL. rewrite (R i Hi ix HL), Su by exact HL. cbn [translation to_axis]. ring.
Qed.

(* @ex *)
Lemma implicit_diffusion_of_copies_ex_lem : forall tpu eigh, let pb := [periodic_bc 2; periodic_bc 2] in let dt := 6%R in let dt' := 4%R in
  copied_grid swapped 2 p34g p43g /\ (0 < gndim p34g)%nat /\ copied_offset (gndim p34g) swapped half2 half2 /\ (dt' * 3 = dt * 2)%R /\
  (30 = 3 * 2 * 5)%R /\ (0 <= dt * 5)%R /\
  treat_alike p34g p43g half2 half2 pb pb swapped 3 (3 * 3 / 2) (default_convect dt) (default_convect dt') /\
  optional_alike p34g p43g half2 half2 pb pb swapped 3 (3 * 3 / 2 * (2 / 3)) (Some tailwind) (Some tailwind) /\
  solves_poisson p34g half2 (fun v _ b => pressure_solve_fast_diag tpu eigh (1 / 1000) v (Some b) (Some Fft)) /\
  solves_poisson p43g half2 (fun v _ b => pressure_solve_fast_diag tpu eigh (1 / 1000) v (Some b) (Some Fft)) /\
  (forall u, periodic_velocity p34g half2 pb u -> exists u', p34_ds tpu eigh u 5 dt = Ok u' /\ Forall2 (implicitly_diffused (dt * 5)) u u') /\
  (forall u, periodic_velocity p43g half2 pb u -> exists u', p34_ds tpu eigh u 30 dt' = Ok u' /\ Forall2 (implicitly_diffused (dt' * 30)) u u') /\
  periodic_velocity p34g half2 pb p34v /\ periodic_velocity p43g half2 pb p43v /\ copied_velocity (gndim p34g) swapped 3 p34v p43v.
Proof.
  intros tpu eigh pb dt dt'. destruct (semi_implicit_of_copies_ex_lem tpu eigh) as (_ & A & B & C & D & _ & E & F & G & H & I & J & K).
  split; [exact A|]. split; [exact B|]. split; [exact C|]. split; [exact D|]. split; [lra|]. split; [unfold dt; lra|]. split; [exact E|]. split; [exact F|]. split; [exact G|]. split; [exact H|].
  split; [apply p34_diff; unfold dt; lra|]. split; [apply p43_diff; unfold dt'; lra|]. split; [exact I|]. split; [exact J | exact K].
Qed.
(* @ex *)
Lemma solver_does_not_matter_ex_lem : forall tpu eigh cutoff, (0 <= cutoff <= 1 / 1000)%R -> let pb := [periodic_bc 2; periodic_bc 2] in
  (0 < gndim p34g)%nat /\ length half2 = gndim p34g /\
  optional_alike p34g p34g half2 half2 pb pb (translation (fun _ => 0)) 1 1 (Some tailwind) (Some tailwind) /\
  solves_poisson p34g half2 (fun v _ b => pressure_solve_fast_diag tpu eigh (1 / 1000) v (Some b) (Some Fft)) /\
  solves_poisson p34g half2 (fun v _ b => pressure_solve_fast_diag tpu eigh cutoff v (Some b) (Some Fft)) /\
  periodic_velocity p34g half2 pb p34v.
Proof.
  intros tpu eigh cutoff Hc pb. split; [cbn; lia|]. split; [reflexivity|]. split; [apply tailwind_alike|]. split; [apply p34_solver|]. split; [|exact p34_pv].
  destruct (p34_ready eigh) as (q & Ls & Hd & Hw & _ & H3 & _). apply (@default_pressure_solver_lem tpu eigh cutoff (Some Fft) p34g Hd Hw); [lra | | intros; exact I].
  intros a Ha. destruct (H3 a Ha) as (A & B). split; [exact A|]. eapply Rle_lt_trans; [|exact B]. apply Rmult_le_compat_r; [apply pow2_ge_0 | lra].
Qed.
Definition p34moved : list gvar :=
  map (fun i => mkgv (mkga (mkarr [3%nat; 4%nat] (fun ix => vval p34v i (subix (fun _ => 1) ix))) (offs i (1 # 2) half2) p34g) (periodic_bc 2)) [0%nat; 1%nat].
(* @ex *)
Lemma solution_moves_with_the_data_ex_lem : forall tpu eigh, let pb := [periodic_bc 2; periodic_bc 2] in
  optional_alike p34g p34g half2 half2 pb pb (translation (fun _ => 1)) 1 1 (Some tailwind) (Some tailwind) /\
  solves_poisson p34g half2 (fun v _ b => pressure_solve_fast_diag tpu eigh (1 / 1000) v (Some b) (Some Fft)) /\
  periodic_velocity p34g half2 pb p34v /\ periodic_velocity p34g half2 pb p34moved /\
  (forall i ix, (i < gndim p34g)%nat -> length ix = gndim p34g -> vval p34moved i ix = vval p34v i (subix (fun _ => 1) ix)).
Proof.
  intros tpu eigh pb. split; [apply tailwind_alike|]. split; [apply p34_solver|]. split; [exact p34_pv|]. split.
  - split; [|split; [|split]].
    + split; [reflexivity|]. repeat constructor; (lia || lra || reflexivity).
    + repeat constructor.
    + intros [|[|[|i]]] u H; cbn in H; try discriminate; injection H as <-; apply off_eq_refl.
    + reflexivity.
  - assert (P : forall i, (i < 2)%nat -> periodic (gshape p34g) (fun ix => vval p34v i (under 2 (translation (fun _ => 1)) ix))).
    { intros i Hi. apply (@sym_periodic p34g p34g (translation (fun _ => 1)) 1 (translation_grid _ _)). apply (periodic_vval (proj1 p34_pv)). exact Hi. }
    intros i ix Hi HL. change (gndim p34g) with 2%nat in *.
    assert (Su : forall jx, length jx = 2%nat -> subix (fun _ => 1) jx = under 2 (translation (fun _ => 1)) jx) by (intros jx HLj; unfold subix, under; rewrite HLj; reflexivity).
    assert (E : vval p34moved i ix = vval p34v i (subix (fun _ => 1) (wrap (gshape p34g) ix))) by (destruct i as [|[|i]]; [reflexivity | reflexivity | lia]).
    rewrite E, !Su by (rewrite ?wrap_length by exact HL; auto). exact (P i Hi ix HL).
Qed.
