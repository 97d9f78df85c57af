(** * C77: runs of the Navier-Stokes solvers on mirror images; symmetric flows stay symmetric *)
From Verif Require Import Prelude NdArr Grids_model Spec SpecLin SpecDiag SpecDiff LinAlg Cplx Boundaries_model BoundariesPeriodic FD_model LaplacianProps PRep FDProofs FDProps Pressure_model PressureProps ProjectionProps Interp_model InterpProofs InterpProps Advection_model AdvectionProofs AdvectionProps FastDiag_model Laplacian_model PressureSolve_model PressureSolveProps Diffusion_model DiffusionProps ImplicitDiffusionProps QRProps TimeStep_model Equations_model SpecNS EquationsProps EquationsMoreProps LearnedProps SpecRollout SpecSym SymBase SymEx SymProps SymVelProps SymStepProps SymMoreProps SpecReflect ReflectBase ReflectProps ReflectStepProps.
Set Implicit Arguments.
Local Open Scope Z_scope.

(* @prop C77 Runs of semi_implicit_navier_stokes commute with mirrors: for any number of steps of any explicit Runge-Kutta tableau, any convections and forcings that treat mirror images alike (the library's convections do) and any exact pressure solvers, the run from the mirror image of a velocity succeeds and its velocity is, after every number of steps, the mirror image of that of the run from the velocity. *)
Lemma semi_implicit_of_mirror_images_lem : forall steps t g a k o bs dt rho nu convect convect' forcing forcing' solve solve' v v',
  explicit_tableau t -> (a < gndim g)%nat -> length o = gndim g -> (nu <> None -> rho <> 0%R) ->
  mirror_alike g o bs a k convect convect' -> optional_mirror g o bs a k forcing forcing' -> solves_poisson g o solve -> solves_poisson g o solve' ->
  periodic_velocity g o bs v -> periodic_velocity g o bs v' -> mirrored_velocity (gndim g) a k v v' ->
  exists w w', iterate steps (semi_implicit_navier_stokes t rho nu dt convect diffuse solve forcing) v = Ok w /\
    iterate steps (semi_implicit_navier_stokes t rho nu dt convect' diffuse solve' forcing') v' = Ok w' /\
    periodic_velocity g o bs w /\ periodic_velocity g o bs w' /\ mirrored_velocity (gndim g) a k w w'.
Proof.
  intros steps t g a k o bs dt rho nu convect convect' forcing forcing' solve solve' v v' Ht Ha Ho Hrho Hcv Hf Hsol Hsol' Hv Hv' R.
  assert (H : vmir g a k o bs v v') by (apply vmir_iff; auto). clear Hv Hv' R. revert v v' H.
  induction steps as [|m IH]; intros v v' H; cbn [iterate].
  - exists v, v'. split; [reflexivity|]. split; [reflexivity|]. apply vmir_iff. exact H.
  - destruct (@semi_mir g a k o bs Ha Ho t rho nu dt convect convect' forcing forcing' solve solve' v v' Ht Hrho Hcv Hf Hsol Hsol' H) as (w & w' & E & E' & HW).
    rewrite E, E'. cbn [bind]. apply IH. exact HW.
Qed.

(* @prop C77 The same for implicit_diffusion_navier_stokes (nonnegative dt * viscosity) with any exact diffusion and pressure solvers. *)
Lemma implicit_diffusion_of_mirror_images_lem : forall steps g a k o bs dt rho nu convect convect' forcing forcing' ds ds' solve solve' v v',
  (a < gndim g)%nat -> length o = gndim g -> (0 <= dt * nu)%R ->
  mirror_alike g o bs a k convect convect' -> optional_mirror g o bs a k forcing forcing' -> solves_poisson g o solve -> solves_poisson g o solve' ->
  (forall u, periodic_velocity g o bs u -> exists u', ds u nu dt = Ok u' /\ Forall2 (implicitly_diffused (dt * nu)) u u') ->
  (forall u, periodic_velocity g o bs u -> exists u', ds' u nu dt = Ok u' /\ Forall2 (implicitly_diffused (dt * nu)) u u') ->
  periodic_velocity g o bs v -> periodic_velocity g o bs v' -> mirrored_velocity (gndim g) a k v v' ->
  exists w w', iterate steps (implicit_diffusion_navier_stokes rho nu dt convect ds solve forcing) v = Ok w /\
    iterate steps (implicit_diffusion_navier_stokes rho nu dt convect' ds' solve' forcing') v' = Ok w' /\
    periodic_velocity g o bs w /\ periodic_velocity g o bs w' /\ mirrored_velocity (gndim g) a k w w'.
Proof.
  intros steps g a k o bs dt rho nu convect convect' forcing forcing' ds ds' solve solve' v v' Ha Ho Hpos Hcv Hf Hsol Hsol' Hds Hds' Hv Hv' R.
  assert (H : vmir g a k o bs v v') by (apply vmir_iff; auto). clear Hv Hv' R. revert v v' H.
  induction steps as [|m IH]; intros v v' H; cbn [iterate].
  - exists v, v'. split; [reflexivity|]. split; [reflexivity|]. apply vmir_iff. exact H.
  - destruct (@implicit_mir g a k o bs Ha Ho rho nu dt convect convect' forcing forcing' ds ds' solve solve' v v' Hpos Hcv Hf Hsol Hsol' Hds Hds' H) as (w & w' & E & E' & HW).
    rewrite E, E'. cbn [bind]. apply IH. exact HW.
Qed.

(* @prop C77 Symmetric flows stay symmetric: with the default convection, no forcing (or one that treats mirror images alike) and any exact pressure solver, a velocity equal to its own mirror image is still equal to its own mirror image after every number of steps of semi_implicit_navier_stokes; in particular the component across the mirror vanishes for ever at the faces that lie on the mirror. *)
Lemma symmetric_flow_stays_symmetric_lem : forall steps t g a k o bs dt rho nu forcing solve v,
  explicit_tableau t -> (a < gndim g)%nat -> length o = gndim g -> (nu <> None -> rho <> 0%R) ->
  optional_mirror g o bs a k forcing forcing -> solves_poisson g o solve ->
  periodic_velocity g o bs v -> mirrored_velocity (gndim g) a k v v ->
  exists w, iterate steps (semi_implicit_navier_stokes t rho nu dt (default_convect dt) diffuse solve forcing) v = Ok w /\
    periodic_velocity g o bs w /\ mirrored_velocity (gndim g) a k w w /\
    forall ix, length ix = gndim g -> (2 * nth a ix 0 = k - 1) -> vval w a ix = 0%R.
Proof.
  intros steps t g a k o bs dt rho nu forcing solve v Ht Ha Ho Hrho Hf Hsol Hv R.
  destruct (@semi_implicit_of_mirror_images_lem steps t g a k o bs dt rho nu (default_convect dt) (default_convect dt) forcing forcing solve solve v v) as (w & w' & E & E' & P & _ & M); auto.
  - apply (@convection_of_mirror_images_lem g a k o bs dt Ha Ho).
  - rewrite E in E'. injection E' as <-. exists w. split; [exact E|]. split; [exact P|]. split; [exact M|].
    intros ix HL Hon. pose proof (M a ix Ha HL) as Z. rewrite Nat.eqb_refl in Z.
    replace (mirror_cell a (k - 1) ix) with ix in Z; [lra|]. unfold mirror_cell. replace (k - 1 - nth a ix 0) with (nth a ix 0) by lia. symmetry. apply upd_nth_same.
Qed.

(** ** examples *)
Lemma tailwind_mirror g o bs a k : (a < gndim g)%nat -> mirror_alike g o bs a k tailwind tailwind.
Proof.
  intros Ha v v' Hv Hv' R. exists (map garray v), (map garray v'). eexists _, _. split; [reflexivity|]. split; [reflexivity|].
  split; [apply (tailwind_fields Hv)|]. split; [apply (tailwind_fields Hv')|].
  assert (E : forall x i ix, field_at (map garray x) i ix = vval x i ix) by (intros x i ix; unfold field_at, vval; rewrite nth_error_map; destruct (nth_error x i); reflexivity).
  intros i ix Hi HL. rewrite !E. exact (R i ix Hi HL).
Qed.
Definition p34even : list gvar :=
  [mkgv (mkga (mkarr [3%nat; 4%nat] (fun ix => if nth 0 ix 0 =? 0 then 1%R else 0%R)) (offs 0 (1 # 2) half2) p34g) (periodic_bc 2);
   mkgv (mkga (mkarr [3%nat; 4%nat] (fun ix => if nth 1 ix 0 =? 2 then 3%R else if nth 1 ix 0 =? 0 then (-3)%R else 0%R)) (offs 1 (1 # 2) half2) p34g) (periodic_bc 2)].
Lemma p34even_pv : periodic_velocity p34g half2 [periodic_bc 2; periodic_bc 2] p34even.
Proof.
  split; [|split; [|split]].
  - split; [reflexivity|]. repeat constructor; (lia || lra || reflexivity).
  - repeat constructor.
  - intros [|[|[|i]]] u H; cbn in H; try discriminate; injection H as <-; apply off_eq_refl.
  - reflexivity.
Qed.
Lemma p34even_symmetric : mirrored_velocity (gndim p34g) 1 3 p34even p34even.
Proof.
  intros i ix Hi HL. change (gndim p34g) with 2%nat in *. destruct ix as [|x [|y [|z ix]]]; cbn in HL; try lia. destruct i as [|[|i]]; [| |lia]; cbn [Nat.eqb].
  - reflexivity.
  - change (vval p34even 1 [x; y]) with (if y mod 4 =? 2 then 3%R else if y mod 4 =? 0 then (-3)%R else 0%R).
    change (vval p34even 1 (mirror_cell 1 (3 - 1) [x; y])) with (if (3 - 1 - y) mod 4 =? 2 then 3%R else if (3 - 1 - y) mod 4 =? 0 then (-3)%R else 0%R).
    replace (3 - 1 - y) with (2 - y) by lia. rewrite (Zminus_mod 2 y 4). pose proof (Z.mod_pos_bound y 4 ltac:(lia)) as B. remember (y mod 4) as r.
    assert (C : r = 0 \/ r = 1 \/ r = 2 \/ r = 3) by lia. destruct C as [-> | [-> | [-> | ->]]]; cbn; lra.
Qed.
(* @ex *)
Lemma semi_implicit_of_mirror_images_ex_lem : forall tpu eigh tpu' eigh', let pb := [periodic_bc 2; periodic_bc 2] in
  explicit_tableau (mktab [[1 / 2]; [0; 1 / 2]; [0; 0; 1]] [1 / 6; 1 / 3; 1 / 3; 1 / 6])%R /\ (0 < gndim p34g)%nat /\ length half2 = gndim p34g /\
  mirror_alike p34g half2 pb 0 2 (default_convect 1) (default_convect 1) /\ optional_mirror p34g half2 pb 0 2 (Some tailwind) (Some tailwind) /\
  solves_poisson p34g half2 (fun v _ b => pressure_solve_fast_diag tpu eigh (1 / 1000) v (Some b) (Some Fft)) /\
  solves_poisson p34g half2 (fun v _ b => pressure_solve_fast_diag tpu' eigh' (1 / 1000) v (Some b) (Some Fft)) /\
  periodic_velocity p34g half2 pb p34v /\ periodic_velocity p34g half2 pb p34mirror /\ mirrored_velocity (gndim p34g) 0 2 p34v p34mirror.
Proof.
  intros. split; [exact rk4_explicit|]. split; [cbn; lia|]. split; [reflexivity|].
  split; [apply (@convection_of_mirror_images_lem p34g 0 2 half2 pb 1 ltac:(cbn; lia) eq_refl)|]. split; [apply tailwind_mirror; cbn; lia|].
  split; [apply p34_solver|]. split; [apply p34_solver|]. split; [exact p34_pv|]. split; [exact p34mirror_pv | exact p34mirror_image].
Qed.
(* @ex *)
Lemma implicit_diffusion_of_mirror_images_ex_lem : forall tpu eigh, let pb := [periodic_bc 2; periodic_bc 2] in
  (0 < gndim p34g)%nat /\ length half2 = gndim p34g /\ (0 <= 1 * 3)%R /\
  mirror_alike p34g half2 pb 0 2 (default_convect 1) (default_convect 1) /\ optional_mirror p34g half2 pb 0 2 (Some tailwind) (Some tailwind) /\
  solves_poisson p34g half2 (fun v _ b => pressure_solve_fast_diag tpu eigh (1 / 1000) v (Some b) (Some Fft)) /\
  (forall u, periodic_velocity p34g half2 pb u -> exists u', p34_ds tpu eigh u 3 1 = Ok u' /\ Forall2 (implicitly_diffused (1 * 3)) u u') /\
  periodic_velocity p34g half2 pb p34v /\ periodic_velocity p34g half2 pb p34mirror /\ mirrored_velocity (gndim p34g) 0 2 p34v p34mirror.
Proof.
  intros. split; [cbn; lia|]. split; [reflexivity|]. split; [lra|].
  split; [apply (@convection_of_mirror_images_lem p34g 0 2 half2 pb 1 ltac:(cbn; lia) eq_refl)|]. split; [apply tailwind_mirror; cbn; lia|].
  split; [apply p34_solver|]. split; [apply p34_diff; lra|]. split; [exact p34_pv|]. split; [exact p34mirror_pv | exact p34mirror_image].
Qed.
(* @ex *)
Lemma symmetric_flow_stays_symmetric_ex_lem : forall tpu eigh, let pb := [periodic_bc 2; periodic_bc 2] in
  (1 < gndim p34g)%nat /\ length half2 = gndim p34g /\ optional_mirror p34g half2 pb 1 3 (Some tailwind) (Some tailwind) /\
  solves_poisson p34g half2 (fun v _ b => pressure_solve_fast_diag tpu eigh (1 / 1000) v (Some b) (Some Fft)) /\
  periodic_velocity p34g half2 pb p34even /\ mirrored_velocity (gndim p34g) 1 3 p34even p34even /\ vval p34even 1 [0; 2] = 3%R.
Proof.
  intros. split; [cbn; lia|]. split; [reflexivity|]. split; [apply tailwind_mirror; cbn; lia|]. split; [apply p34_solver|]. split; [exact p34even_pv|]. split; [exact p34even_symmetric | reflexivity].
Qed.
