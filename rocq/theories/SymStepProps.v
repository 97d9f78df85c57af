(** * C64: the steps of the Navier-Stokes solvers on copies *)
From Verif Require Import Prelude NdArr Grids_model Spec SpecLin SpecDiag SpecDiff LinAlg Cplx Boundaries_model BoundariesPeriodic FD_model LaplacianProps PRep FDProofs FDProps WallBC WallBCProps ImposeProps WallFD Pressure_model PressureProps WallFDProps ProjectionProps Interp_model InterpProofs InterpProps UpwindProps TvdProps Advection_model AdvectionProofs AdvectionProps FastDiag_model Laplacian_model PressureSolve_model PressureSolveProps Diffusion_model DiffusionProps ImplicitDiffusionProps QRProps TimeStep_model Equations_model SpecNS EquationsProps EquationsMoreProps LearnedProps SpecRollout RolloutProps SpecSym SymBase SymEx SymProps SymVelProps.
Set Implicit Arguments.
Local Open Scope Z_scope.

Section Step.
Variables (g g' : grid) (p : placement) (s : R) (o o' : list Q) (bs bs' : list bcs).
Hypothesis (Hg : copied_grid p s g g') (Hs : (0 < s)%R) (Hd : (0 < gndim g)%nat) (Hoo : copied_offset (gndim g) p o o').
Let n := gndim g.
Local Notation rel := (copied_values n p).
Local Notation PV := (periodic_velocity g o bs).
Local Notation PV' := (periodic_velocity g' o' bs').
Local Notation VR := (vrel g g' p o o' bs bs').
Let Hn : gndim g' = n := proj1 Hg.
Let Hp : relabelling n p := proj1 (proj2 Hg).
Let Ho : length o = gndim g := proj1 Hoo.
Let Hd' : (0 < gndim g')%nat := sv_Hd' Hg Hd.
Let Ho' : length o' = gndim g' := sv_Ho' Hg Hoo.

Lemma fields_pval gg v l F i : fields_at gg v l F -> (i < length v)%nat -> prep gg (goff (garray (nth i v dgv))) (pval (nth i l dga)) (nth i l dga) /\ periodic (gshape gg) (pval (nth i l dga)).
Proof.
  intros H Hi. destruct (fields_at_nth H Hi) as (A & B & C & D). split.
  - split; [exact A|]. split; [exact B|]. split; [exact C|]. intros ix Hix. symmetry. apply pval_inb. rewrite C. exact Hix.
  - rewrite <- C. apply periodic_pval.
Qed.
Lemma fields_at_pval gg v l F : fields_at gg v l F -> fields_at gg v l (fun i => pval (nth i l dga)).
Proof. intros H. apply fields_at_intro; [apply H|]. intros i Hi. apply (fields_pval H Hi). Qed.
Lemma copied_nth m l l' i : copied_fields n p m l l' -> length l = n -> length l' = n -> (i < n)%nat -> rel m (pval (nth (to_axis p i) l dga)) (pval (nth i l' dga)).
Proof. intros H L L' Hi. pose proof (Hp Hi) as (A & _). apply (H i _ _ Hi); apply nth_error_nth'; lia. Qed.

Lemma explicit_rel k rho rho' nu nu' convect convect' forcing forcing' v v' :
  (nu <> None -> rho <> 0%R) -> (nu' <> None -> rho' <> 0%R) -> (forcing <> None -> rho <> 0%R /\ rho' <> 0%R) ->
  viscosities_in_ratio (k * s) rho rho' nu nu' ->
  treat_alike g g' o o' bs bs' p k (k * k / s) convect convect' ->
  optional_alike g g' o o' bs bs' p k (k * k / s * (rho' / rho)) forcing forcing' -> VR k v v' ->
  exists l l', navier_stokes_explicit_terms rho nu convect diffuse forcing v = Ok l /\ navier_stokes_explicit_terms rho' nu' convect' diffuse forcing' v' = Ok l' /\ VR (k * k / s) l l'.
Proof.
  intros Hrho Hrho' Hrf Hnu Hcv Hf (Hv & Hv' & RV). pose proof (pv_len Hv) as LV. pose proof (pv_len Hv') as LV'. pose proof (pv_wfg Hd Hv) as Hw. pose proof (pv_wfg Hd' Hv') as Hw'.
  destruct (Hcv v v' Hv Hv' RV) as (lc & lc' & C & C' & Ec & Ec' & Fc & Fc' & Rc).
  assert (HF : exists Fo Fo', (forall f, forcing = Some f -> exists lf, f v = Ok lf /\ fields_at g v lf Fo) /\ (forall f, forcing' = Some f -> exists lf, f v' = Ok lf /\ fields_at g' v' lf Fo') /\
     (forall i, (i < n)%nat -> periodic (gshape g) (Fo i)) /\
     (forall i, (i < n)%nat -> rel (k * k / s) (fun ix => opt_term forcing (Fo (to_axis p i) ix / rho)%R) (fun ix => opt_term forcing' (Fo' i ix / rho')%R))).
  { destruct forcing as [f|], forcing' as [f'|]; cbn [optional_alike] in Hf; try contradiction.
    - destruct (Hf v v' Hv Hv' RV) as (lf & lf' & F & F' & Ef & Ef' & Ff & Ff' & Rf).
      exists (fun i => pval (nth i lf dga)), (fun i => pval (nth i lf' dga)).
      split; [intros f0 E0; injection E0 as <-; exists lf; split; [exact Ef | apply (fields_at_pval Ff)]|].
      split; [intros f0 E0; injection E0 as <-; exists lf'; split; [exact Ef' | apply (fields_at_pval Ff')]|].
      split; [intros i Hi; apply (fields_pval Ff); unfold n in Hi; lia|].
      intros i Hi ix HL. cbn [opt_term]. assert (L1 : length lf = n) by (rewrite (proj1 Ff); exact LV). assert (L2 : length lf' = n) by (rewrite (proj1 Ff'), LV'; exact Hn). rewrite (@copied_nth _ lf lf' i Rf L1 L2 Hi ix HL).
      destruct (Hrf ltac:(discriminate)) as (R1 & R2). field. repeat split; auto; lra.
    - exists (fun _ _ => 0%R), (fun _ _ => 0%R). split; [discriminate|]. split; [discriminate|]. split; [intros i _ ix _; reflexivity|]. intros i Hi ix HL. cbn [opt_term]. ring. }
  destruct HF as (Fo & Fo' & HF & HF' & PF & RF).
  set (D := fun i ix => match nu with Some x => (x / rho * lapF g (vval v i) ix)%R | None => 0%R end).
  set (D' := fun i ix => match nu' with Some x => (x / rho' * lapF g' (vval v' i) ix)%R | None => 0%R end).
  assert (PD : forall i, (i < n)%nat -> periodic (gshape g) (D i)).
  { intros i Hi ix HL. unfold D. destruct nu; [|reflexivity]. rewrite (@periodic_lapF g _ (periodic_vval (proj1 Hv) Hi) ix HL). reflexivity. }
  assert (RD : forall i, (i < n)%nat -> rel (k * k / s) (fun ix => opt_term nu (D (to_axis p i) ix)) (fun ix => opt_term nu' (D' i ix))).
  { intros i Hi ix HL. unfold D, D'. destruct nu as [x|], nu' as [x'|]; cbn [viscosities_in_ratio] in Hnu; try contradiction; cbn [opt_term]; [|ring].
    rewrite Hnu, (rel_lapF Hg Hs Hw (RV i Hi) ix HL). fold n. field. split; [apply Hrho; discriminate | lra]. }
  assert (Bt : forall gg oo bb vv i, (0 < gndim gg)%nat -> length oo = gndim gg -> periodic_velocity gg oo bb vv -> (i < length vv)%nat -> length (btypes (gbc (nth i vv dgv))) = gndim gg).
  { intros gg oo bb vv i A B Hvv Hi. rewrite (pv_len Hvv) in Hi. destruct (periodic_vec_nth (proj1 Hvv) Hi) as ((_ & Hb) & G). rewrite Hb, G. apply repeat_length. }
  destruct (@explicit_prep g rho nu convect diffuse forcing v lc (fun i => pval (nth i lc dga)) D Fo) as (l & El & Ll & Hl); auto.
  { intros i Hi. apply (Bt g o bs v i Hd Ho Hv Hi). }
  { apply (fields_at_pval Fc). }
  { intros x i Ex Hi. unfold D. rewrite Ex. apply (@diffuse_prep g o bs v (x / rho) i Hv). lia. }
  destruct (@explicit_prep g' rho' nu' convect' diffuse forcing' v' lc' (fun i => pval (nth i lc' dga)) D' Fo') as (l' & El' & Ll' & Hl'); auto.
  { intros i Hi. apply (Bt g' o' bs' v' i Hd' Ho' Hv' Hi). }
  { apply (fields_at_pval Fc'). }
  { intros x i Ex Hi. unfold D'. rewrite Ex. apply (@diffuse_prep g' o' bs' v' (x / rho') i Hv'). lia. }
  exists l, l'. split; [exact El|]. split; [exact El'|].
  refine (@vrel_intro g g' p s o o' bs bs' Hg Hd Hoo (k * k / s) v v' l l' _ _ Hv Hv' _ _ _ _ _ _).
  - unfold n in *; lia.
  - unfold n in *; lia.
  - intros i Hi. destruct (Hl i ltac:(lia)) as (A & B). split; [rewrite A; apply (pv_bc Hv Hi)|]. eapply prep_off; [apply (pv_off Hd Ho Hv Hi) | exact B].
  - intros i Hi. assert (Hi' : (i < gndim g')%nat) by (rewrite Hn; exact Hi). destruct (Hl' i ltac:(lia)) as (A & B). split; [rewrite A; apply (pv_bc Hv' Hi')|].
    eapply prep_off; [apply (pv_off Hd' Ho' Hv' Hi') | exact B].
  - intros i Hi ix HL. cbv beta. destruct (@fields_pval g v lc C i Fc ltac:(lia)) as (_ & P). rewrite (P ix HL), (PD i Hi ix HL), (PF i Hi ix HL). reflexivity.
  - intros i Hi. cbv beta. apply rel_plus; [apply rel_plus|].
    + apply (copied_nth Rc); auto; [rewrite (proj1 Fc); exact LV | rewrite (proj1 Fc'), LV'; exact Hn].
    + apply (RD i Hi).
    + apply (RF i Hi).
Qed.
End Step.

(* @prop C64 Projection commutes with copying, whatever exact pressure solvers are used on either side: if v' is k times a translated, axis-relabelled copy of v (cells s times as wide), its projection is k times the copied projection of v. *)
Lemma projection_of_copies_lem : forall g g' p s o o' bs bs' k solve solve' v v', copied_grid p s g g' -> (0 < s)%R -> (0 < gndim g)%nat -> copied_offset (gndim g) p o o' ->
  solves_poisson g o solve -> solves_poisson g' o' solve' ->
  periodic_velocity g o bs v -> periodic_velocity g' o' bs' v' -> copied_velocity (gndim g) p k v v' ->
  exists w w', projection solve v = Ok w /\ projection solve' v' = Ok w' /\ copied_velocity (gndim g) p k w w'.
Proof.
  intros g g' p s o o' bs bs' k solve solve' v v' Hg Hs Hd Hoo Hsol Hsol' Hv Hv' R.
  destruct (@projection_rel g g' p s o o' bs bs' Hg Hs Hd Hoo k solve solve' v v' Hsol Hsol') as (w & w' & E & E' & (_ & _ & RW)); [split; [exact Hv|]; split; [exact Hv' | exact R]|].
  exists w, w'. auto.
Qed.

Lemma semi_rel : forall t g g' p s o o' bs bs' k dt dt' rho rho' nu nu' convect convect' forcing forcing' solve solve' v v',
  explicit_tableau t -> copied_grid p s g g' -> (0 < s)%R -> (0 < gndim g)%nat -> copied_offset (gndim g) p o o' -> (0 < k)%R -> (dt' * k = dt * s)%R ->
  (nu <> None \/ forcing <> None -> rho <> 0%R /\ rho' <> 0%R) -> viscosities_in_ratio (k * s) rho rho' nu nu' ->
  treat_alike g g' o o' bs bs' p k (k * k / s) convect convect' -> optional_alike g g' o o' bs bs' p k (k * k / s * (rho' / rho)) forcing forcing' ->
  solves_poisson g o solve -> solves_poisson g' o' solve' -> vrel g g' p o o' bs bs' k v v' ->
  exists w w', semi_implicit_navier_stokes t rho nu dt convect diffuse solve forcing v = Ok w /\
    semi_implicit_navier_stokes t rho' nu' dt' convect' diffuse solve' forcing' v' = Ok w' /\ vrel g g' p o o' bs bs' k w w'.
Proof.
  intros t g g' p s o o' bs bs' k dt dt' rho rho' nu nu' convect convect' forcing forcing' solve solve' v v' Ht Hg Hs Hd Hoo Hk Hdt Hrho Hnu Hcv Hf Hsol Hsol' Hv.
  unfold semi_implicit_navier_stokes. apply (@vel_rk_rel g g' p s o o' bs bs' Hg Hd Hoo t _ _ _ _ k (k * k / s) dt dt' v v'); auto.
  - apply (Rmult_eq_reg_r s); [|lra]. replace (dt' * (k * k / s) * s)%R with (dt' * k * k)%R by (field; lra). rewrite Hdt. ring.
  - intros w w' Hw. apply (@explicit_rel g g' p s o o' bs bs' Hg Hs Hd Hoo k rho rho' nu nu' convect convect' forcing forcing' w w'); auto.
    + intros H. apply Hrho. left. exact H.
    + intros H. apply Hrho. left. destruct nu, nu'; cbn in Hnu; congruence.
  - intros w w' Hw. apply (@projection_rel g g' p s o o' bs bs' Hg Hs Hd Hoo k solve solve' w w' Hsol Hsol' Hw).
Qed.

(* @prop C64 Dynamic similarity, isotropy and translation invariance of semi_implicit_navier_stokes, for any number of steps of any explicit Runge-Kutta tableau: take a velocity that is k > 0 times a translated, axis-relabelled copy of another on a grid with cells s > 0 times as wide, the time step s/k times as long, the kinematic viscosity k s times as large (same Reynolds number), convections and forcings that treat copies alike (the library's schemes do) and any exact pressure solvers; then both runs succeed and after every number of steps the velocities are still k times copies of each other. *)
Lemma semi_implicit_of_copies_lem : forall steps t g g' p s o o' bs bs' k dt dt' rho rho' nu nu' convect convect' forcing forcing' solve solve' v v',
  explicit_tableau t -> copied_grid p s g g' -> (0 < s)%R -> (0 < gndim g)%nat -> copied_offset (gndim g) p o o' -> (0 < k)%R -> (dt' * k = dt * s)%R ->
  (nu <> None \/ forcing <> None -> rho <> 0%R /\ rho' <> 0%R) -> viscosities_in_ratio (k * s) rho rho' nu nu' ->
  treat_alike g g' o o' bs bs' p k (k * k / s) convect convect' -> optional_alike g g' o o' bs bs' p k (k * k / s * (rho' / rho)) forcing forcing' ->
  solves_poisson g o solve -> solves_poisson g' o' solve' ->
  periodic_velocity g o bs v -> periodic_velocity g' o' bs' v' -> copied_velocity (gndim g) p k v v' ->
  exists w w', iterate steps (semi_implicit_navier_stokes t rho nu dt convect diffuse solve forcing) v = Ok w /\
    iterate steps (semi_implicit_navier_stokes t rho' nu' dt' convect' diffuse solve' forcing') v' = Ok w' /\
    periodic_velocity g o bs w /\ periodic_velocity g' o' bs' w' /\ copied_velocity (gndim g) p k w w'.
Proof.
  intros steps t g g' p s o o' bs bs' k dt dt' rho rho' nu nu' convect convect' forcing forcing' solve solve' v v' Ht Hg Hs Hd Hoo Hk Hdt Hrho Hnu Hcv Hf Hsol Hsol' Hv Hv' R.
  assert (H : vrel g g' p o o' bs bs' k v v') by (split; [exact Hv|]; split; [exact Hv' | exact R]). clear Hv Hv' R. revert v v' H.
  induction steps as [|m IH]; intros v v' H; cbn [iterate].
  - exists v, v'. split; [reflexivity|]. split; [reflexivity|]. exact H.
  - destruct (@semi_rel t g g' p s o o' bs bs' k dt dt' rho rho' nu nu' convect convect' forcing forcing' solve solve' v v' Ht Hg Hs Hd Hoo Hk Hdt Hrho Hnu Hcv Hf Hsol Hsol' H) as (w & w' & E & E' & HW).
    rewrite E, E'. cbn [bind]. apply IH. exact HW.
Qed.

(* @ex *)
Lemma projection_of_copies_ex_lem : forall tpu eigh tpu' eigh', copied_grid swapped 2 p34g p43g /\ (0 < gndim p34g)%nat /\ copied_offset (gndim p34g) swapped half2 half2 /\
  solves_poisson p34g half2 (fun v _ b => pressure_solve_fast_diag tpu eigh (1 / 1000) v (Some b) (Some Fft)) /\
  solves_poisson p43g half2 (fun v _ b => pressure_solve_fast_diag tpu' eigh' (1 / 1000) v (Some b) (Some Fft)) /\
  periodic_velocity p34g half2 [periodic_bc 2; periodic_bc 2] p34v /\ periodic_velocity p43g half2 [periodic_bc 2; periodic_bc 2] p43v /\ copied_velocity (gndim p34g) swapped 3 p34v p43v.
Proof.
  intros. split; [exact p43_grid|]. split; [cbn; lia|]. split; [exact half_copy|]. split; [apply p34_solver|]. split; [apply p43_solver|]. split; [exact p34_pv|]. split; [exact p43_pv | exact p43_copy].
Qed.
(* @ex *)
Lemma semi_implicit_of_copies_ex_lem : forall tpu eigh, let pb := [periodic_bc 2; periodic_bc 2] in let dt := 6%R in let dt' := 4%R in
  explicit_tableau (mktab [[1 / 2]; [0; 1 / 2]; [0; 0; 1]] [1 / 6; 1 / 3; 1 / 3; 1 / 6])%R /\
  copied_grid swapped 2 p34g p43g /\ (0 < gndim p34g)%nat /\ copied_offset (gndim p34g) swapped half2 half2 /\ (dt' * 3 = dt * 2)%R /\
  viscosities_in_ratio (3 * 2) 3 2 (Some 1%R) (Some 4%R) /\
  treat_alike p34g p43g half2 half2 pb pb swapped 3 (3 * 3 / 2) (default_convect dt) (default_convect dt') /\
  optional_alike p34g p43g half2 half2 pb pb swapped 3 (3 * 3 / 2 * (2 / 3)) (Some tailwind) (Some tailwind) /\
  solves_poisson p34g half2 (fun v _ b => pressure_solve_fast_diag tpu eigh (1 / 1000) v (Some b) (Some Fft)) /\
  solves_poisson p43g half2 (fun v _ b => pressure_solve_fast_diag tpu eigh (1 / 1000) v (Some b) (Some Fft)) /\
  periodic_velocity p34g half2 pb p34v /\ periodic_velocity p43g half2 pb p43v /\ copied_velocity (gndim p34g) swapped 3 p34v p43v.
Proof.
  intros tpu eigh pb dt dt'. split; [exact rk4_explicit|]. split; [exact p43_grid|]. split; [cbn; lia|]. split; [exact half_copy|]. split; [unfold dt, dt'; lra|]. split; [cbn; lra|].
  split; [apply (@convection_treats_copies_alike_lem p34g p43g half2 half2 pb pb swapped 2 3 dt dt' p43_grid ltac:(lra) ltac:(cbn; lia) half_copy ltac:(lra)); unfold dt, dt'; lra|].
  split; [cbn [optional_alike]; replace (3 * 3 / 2 * (2 / 3))%R with 3%R by lra; apply tailwind_alike|].
  split; [apply p34_solver|]. split; [apply p43_solver|]. split; [exact p34_pv|]. split; [exact p43_pv | exact p43_copy].
Qed.
