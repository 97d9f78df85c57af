(** Generated by tools/gen.py from ReflectRunProps.v: property theorems only. *)
From Verif Require Import Prelude NdArr Grids_model Spec SpecLin SpecDiag SpecDiff LinAlg Cplx Boundaries_model BoundariesPeriodic FD_model LaplacianProps PRep FDProofs FDProps Pressure_model PressureProps ProjectionProps Interp_model InterpProofs InterpProps Advection_model AdvectionProofs AdvectionProps FastDiag_model Laplacian_model PressureSolve_model PressureSolveProps Diffusion_model DiffusionProps ImplicitDiffusionProps QRProps TimeStep_model Equations_model SpecNS EquationsProps EquationsMoreProps LearnedProps SpecRollout SpecSym SymBase SymEx SymProps SymVelProps SymStepProps SymMoreProps SpecReflect ReflectBase ReflectProps ReflectStepProps.
From Verif Require Import ReflectRunProps.
Local Open Scope Z_scope.
Set Implicit Arguments.

(** C77. Runs of semi_implicit_navier_stokes commute with mirrors: for any number of steps of any explicit Runge-Kutta tableau, any convections and forcings that treat mirror images alike (the library's convections do) and any exact pressure solvers, the run from the mirror image of a velocity succeeds and its velocity is, after every number of steps, the mirror image of that of the run from the velocity. *)
Theorem semi_implicit_of_mirror_images : forall steps t g a k o bs dt rho nu convect convect' forcing forcing' solve solve' v v',
  explicit_tableau t -> (a < gndim g)%nat -> length o = gndim g -> (nu <> None -> rho <> 0%R) ->
  mirror_alike g o bs a k convect convect' -> optional_mirror g o bs a k forcing forcing' -> solves_poisson g o solve -> solves_poisson g o solve' ->
  periodic_velocity g o bs v -> periodic_velocity g o bs v' -> mirrored_velocity (gndim g) a k v v' ->
  exists w w', iterate steps (semi_implicit_navier_stokes t rho nu dt convect diffuse solve forcing) v = Ok w /\
    iterate steps (semi_implicit_navier_stokes t rho nu dt convect' diffuse solve' forcing') v' = Ok w' /\
    periodic_velocity g o bs w /\ periodic_velocity g o bs w' /\ mirrored_velocity (gndim g) a k w w'.
Proof. exact (@semi_implicit_of_mirror_images_lem). Qed.
Print Assumptions semi_implicit_of_mirror_images.

(** C77. The same for implicit_diffusion_navier_stokes (nonnegative dt * viscosity) with any exact diffusion and pressure solvers. *)
Theorem implicit_diffusion_of_mirror_images : forall steps g a k o bs dt rho nu convect convect' forcing forcing' ds ds' solve solve' v v',
  (a < gndim g)%nat -> length o = gndim g -> (0 <= dt * nu)%R ->
  mirror_alike g o bs a k convect convect' -> optional_mirror g o bs a k forcing forcing' -> solves_poisson g o solve -> solves_poisson g o solve' ->
  (forall u, periodic_velocity g o bs u -> exists u', ds u nu dt = Ok u' /\ Forall2 (implicitly_diffused (dt * nu)) u u') ->
  (forall u, periodic_velocity g o bs u -> exists u', ds' u nu dt = Ok u' /\ Forall2 (implicitly_diffused (dt * nu)) u u') ->
  periodic_velocity g o bs v -> periodic_velocity g o bs v' -> mirrored_velocity (gndim g) a k v v' ->
  exists w w', iterate steps (implicit_diffusion_navier_stokes rho nu dt convect ds solve forcing) v = Ok w /\
    iterate steps (implicit_diffusion_navier_stokes rho nu dt convect' ds' solve' forcing') v' = Ok w' /\
    periodic_velocity g o bs w /\ periodic_velocity g o bs w' /\ mirrored_velocity (gndim g) a k w w'.
Proof. exact (@implicit_diffusion_of_mirror_images_lem). Qed.
Print Assumptions implicit_diffusion_of_mirror_images.

(** C77. Symmetric flows stay symmetric: with the default convection, no forcing (or one that treats mirror images alike) and any exact pressure solver, a velocity equal to its own mirror image is still equal to its own mirror image after every number of steps of semi_implicit_navier_stokes; in particular the component across the mirror vanishes for ever at the faces that lie on the mirror. *)
Theorem symmetric_flow_stays_symmetric : forall steps t g a k o bs dt rho nu forcing solve v,
  explicit_tableau t -> (a < gndim g)%nat -> length o = gndim g -> (nu <> None -> rho <> 0%R) ->
  optional_mirror g o bs a k forcing forcing -> solves_poisson g o solve ->
  periodic_velocity g o bs v -> mirrored_velocity (gndim g) a k v v ->
  exists w, iterate steps (semi_implicit_navier_stokes t rho nu dt (default_convect dt) diffuse solve forcing) v = Ok w /\
    periodic_velocity g o bs w /\ mirrored_velocity (gndim g) a k w w /\
    forall ix, length ix = gndim g -> (2 * nth a ix 0 = k - 1) -> vval w a ix = 0%R.
Proof. exact (@symmetric_flow_stays_symmetric_lem). Qed.
Print Assumptions symmetric_flow_stays_symmetric.

(** The hypotheses are met by a concrete case. *)
Example semi_implicit_of_mirror_images_ex : forall tpu eigh tpu' eigh', let pb := [periodic_bc 2; periodic_bc 2] in
  explicit_tableau (mktab [[1 / 2]; [0; 1 / 2]; [0; 0; 1]] [1 / 6; 1 / 3; 1 / 3; 1 / 6])%R /\ (0 < gndim p34g)%nat /\ length half2 = gndim p34g /\
  mirror_alike p34g half2 pb 0 2 (default_convect 1) (default_convect 1) /\ optional_mirror p34g half2 pb 0 2 (Some tailwind) (Some tailwind) /\
  solves_poisson p34g half2 (fun v _ b => pressure_solve_fast_diag tpu eigh (1 / 1000) v (Some b) (Some Fft)) /\
  solves_poisson p34g half2 (fun v _ b => pressure_solve_fast_diag tpu' eigh' (1 / 1000) v (Some b) (Some Fft)) /\
  periodic_velocity p34g half2 pb p34v /\ periodic_velocity p34g half2 pb p34mirror /\ mirrored_velocity (gndim p34g) 0 2 p34v p34mirror.
Proof. exact (@semi_implicit_of_mirror_images_ex_lem). Qed.

(** The hypotheses are met by a concrete case. *)
Example implicit_diffusion_of_mirror_images_ex : forall tpu eigh, let pb := [periodic_bc 2; periodic_bc 2] in
  (0 < gndim p34g)%nat /\ length half2 = gndim p34g /\ (0 <= 1 * 3)%R /\
  mirror_alike p34g half2 pb 0 2 (default_convect 1) (default_convect 1) /\ optional_mirror p34g half2 pb 0 2 (Some tailwind) (Some tailwind) /\
  solves_poisson p34g half2 (fun v _ b => pressure_solve_fast_diag tpu eigh (1 / 1000) v (Some b) (Some Fft)) /\
  (forall u, periodic_velocity p34g half2 pb u -> exists u', p34_ds tpu eigh u 3 1 = Ok u' /\ Forall2 (implicitly_diffused (1 * 3)) u u') /\
  periodic_velocity p34g half2 pb p34v /\ periodic_velocity p34g half2 pb p34mirror /\ mirrored_velocity (gndim p34g) 0 2 p34v p34mirror.
Proof. exact (@implicit_diffusion_of_mirror_images_ex_lem). Qed.

(** The hypotheses are met by a concrete case. *)
Example symmetric_flow_stays_symmetric_ex : forall tpu eigh, let pb := [periodic_bc 2; periodic_bc 2] in
  (1 < gndim p34g)%nat /\ length half2 = gndim p34g /\ optional_mirror p34g half2 pb 1 3 (Some tailwind) (Some tailwind) /\
  solves_poisson p34g half2 (fun v _ b => pressure_solve_fast_diag tpu eigh (1 / 1000) v (Some b) (Some Fft)) /\
  periodic_velocity p34g half2 pb p34even /\ mirrored_velocity (gndim p34g) 1 3 p34even p34even /\ vval p34even 1 [0; 2] = 3%R.
Proof. exact (@symmetric_flow_stays_symmetric_ex_lem). Qed.
