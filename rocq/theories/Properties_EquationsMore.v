(** Generated by tools/gen.py from EquationsMoreProps.v: property theorems only. *)
From Verif Require Import Prelude NdArr Grids_model Spec SpecLin SpecDiag SpecDiff LinAlg Cplx Boundaries_model BoundariesPeriodic FD_model LaplacianProps PRep FDProofs FDProps WallBC WallBCProps ImposeProps WallFD Pressure_model PressureProps WallFDProps ProjectionProps Interp_model InterpProofs InterpProps UpwindProps TvdProps Advection_model AdvectionProofs AdvectionProps MonotoneProps FastDiag_model Laplacian_model PressureSolve_model PressureSolveProps Diffusion_model DiffusionProps ImplicitDiffusionProps QRProps TimeStep_model Equations_model SpecNS EquationsProps.
From Verif Require Import EquationsMoreProps.
Local Open Scope Z_scope.
Set Implicit Arguments.

(** C49. sum_fields of any positive number of tuples of fields with matching offsets and grids is, component by component, the pointwise sum at the same offsets. *)
Theorem sum_fields_pointwise : forall g v ls Fs, (0 < length ls)%nat ->
  (forall k l, nth_error ls k = Some l -> fields_at g v l (Fs k)) ->
  exists l, sum_fields ls = Ok l /\ fields_at g v l (fun i ix => nsum (length ls) (fun k => Fs k i ix)).
Proof. exact (@sum_fields_pointwise_lem). Qed.
Print Assumptions sum_fields_pointwise.

(** The hypotheses are met by a concrete case. *)
Example sum_fields_pointwise_ex : exists lc lf C Fo, default_convect 1 p34v = Ok lc /\ push p34v = Ok lf /\
  (forall k l, nth_error [lc; lf; lf] k = Some l -> fields_at p34g p34v l (nth k [C; Fo; Fo] C)).
Proof. exact (@sum_fields_pointwise_ex_lem). Qed.

(** C49. sum_fields never mixes fields of different points: if two tuples differ in length, or in some component's offset or grid, it raises ValueError; in particular whenever it succeeds all tuples agree in all of these. *)
Theorem sum_fields_rejects_mismatch : forall t rest r, In r rest ->
  (length r <> length t \/ exists i a b, nth_error t i = Some a /\ nth_error r i = Some b /\ (~ off_eq (goff a) (goff b) \/ ggrid a <> ggrid b)) ->
  sum_fields (t :: rest) = Err EValue.
Proof. exact (@sum_fields_rejects_mismatch_lem). Qed.
Print Assumptions sum_fields_rejects_mismatch.

(** The hypotheses are met by a concrete case. *)
Example sum_fields_rejects_mismatch_ex : In (@nil garr) [[garray ipc]; []] /\ length (@nil garr) <> length [garray ipc].
Proof. exact (@sum_fields_rejects_mismatch_ex_lem). Qed.

(** C49. stable_time_step of the equations module: any time step it returns satisfies the advective limit max_velocity * dt <= max_courant * step on every axis, and, unless diffusion is implicit, does not exceed the stable time step of explicit diffusion; when the advective limit is the larger one it raises ValueError instead of returning an unstable step. *)
Theorem ns_time_step_stable : forall vm cm nu g imp,
  (forall dt, (0 < vm)%R -> (0 <= cm)%R -> ns_stable_time_step vm cm nu g imp = Ok dt ->
     (forall a, (a < length (gstep g))%nat -> (vm * dt <= cm * hstep g a)%R) /\
     (imp = false -> forall d, stable_time_step nu g = Ok (Some d) -> (dt <= d)%R)) /\
  (forall dt d, advection_stable_time_step vm cm g = Ok dt -> stable_time_step nu g = Ok (Some d) -> (d < dt)%R ->
     ns_stable_time_step vm cm nu g false = Err EValue /\ ns_stable_time_step vm cm nu g true = Ok dt).
Proof. exact (@ns_time_step_stable_lem). Qed.
Print Assumptions ns_time_step_stable.

(** The hypotheses are met by a concrete case. *)
Example ns_time_step_stable_ex : exists dt d, (0 < 3)%R /\ (0 <= 1 / 2)%R /\ ns_stable_time_step 3 (1 / 2) (1 / 100) ipg false = Ok dt /\
  advection_stable_time_step 3 (1 / 2) ipg = Ok dt /\ stable_time_step 1000 ipg = Ok (Some d) /\ (d < dt)%R.
Proof. exact (@ns_time_step_stable_ex_lem). Qed.

(** C49. dynamic_time_step: any time step it returns respects the CFL limit of the velocity it is given: in every cell and along every axis, the speed sqrt(sum of squared components) times dt is at most max_courant times the grid step; and unless diffusion is implicit it does not exceed the stable time step of explicit diffusion. *)
Theorem dynamic_time_step_cfl : forall v cm nu g imp dt, (0 < length v)%nat ->
  (forall u, In u v -> shp (gdata (garray u)) = gshape g) -> (0 <= cm)%R -> (forall a, (a < length (gstep g))%nat -> (0 < hstep g a)%R) ->
  dynamic_time_step v cm nu g imp = Ok dt ->
  (forall ix a, inb (gshape g) ix -> (a < length (gstep g))%nat -> (sqrt (nsum (length v) (fun i => vval v i ix ^ 2)) * dt <= cm * hstep g a)%R) /\
  (imp = false -> forall d, stable_time_step nu g = Ok (Some d) -> (dt <= d)%R).
Proof. exact (@dynamic_time_step_cfl_lem). Qed.
Print Assumptions dynamic_time_step_cfl.

(** The hypotheses are met by a concrete case. *)
Example dynamic_time_step_cfl_ex : (0 < length p34v)%nat /\ (forall u, In u p34v -> shp (gdata (garray u)) = gshape p34g) /\ (0 <= 1 / 2)%R /\
  (forall a, (a < length (gstep p34g))%nat -> (0 < hstep p34g a)%R) /\ exists dt, dynamic_time_step p34v (1 / 2) 0 p34g false = Ok dt.
Proof. exact (@dynamic_time_step_cfl_ex_lem). Qed.

(** C49. One step of implicit_diffusion_navier_stokes on a staggered periodic velocity, for every convection and forcing function that returns one field per component at that component's offset, every pressure solver and every diffusion solver: it is explicit Euler with convection + forcing / density, then projection, then an implicit diffusion step with coefficient viscosity * dt. The viscosity is not divided by the density (unlike in the explicit equations), so without forcing the density has no effect. *)
Theorem implicit_step_equation : forall g o bs density viscosity dt convect diffusion_solve solve forcing v lc C Fo,
  (0 < gndim g)%nat -> length o = gndim g -> periodic_velocity g o bs v ->
  convect v = Ok lc -> fields_at g v lc C ->
  (forall f, forcing = Some f -> exists lf, f v = Ok lf /\ fields_at g v lf Fo) ->
  pressure_solver g o solve ->
  (forall u, periodic_velocity g o bs u -> exists u', diffusion_solve u viscosity dt = Ok u' /\ Forall2 (implicitly_diffused (dt * viscosity)) u u') ->
  exists star vp v',
    (forall i u, nth_error star i = Some u -> exists o', is_field (garray u) g o' (fun ix =>
       vval v i ix + dt * (C i ix + match forcing with Some _ => Fo i ix / density | None => 0 end))%R) /\
    projection solve star = Ok vp /\
    implicit_diffusion_navier_stokes density viscosity dt convect diffusion_solve solve forcing v = Ok v' /\
    periodic_velocity g o bs v' /\ Forall2 (implicitly_diffused (dt * viscosity)) vp v'.
Proof. exact (@implicit_step_equation_lem). Qed.
Print Assumptions implicit_step_equation.

(** C49. One step of implicit_diffusion_navier_stokes without forcing (default convection) conserves the total of every velocity component, for every viscosity, time step, density, pressure solver and exact diffusion solver. *)
Theorem implicit_step_conserves_momentum : forall g o bs density viscosity dt diffusion_solve solve v,
  (0 < gndim g)%nat -> length o = gndim g -> periodic_velocity g o bs v -> pressure_solver g o solve ->
  (forall u, periodic_velocity g o bs u -> exists u', diffusion_solve u viscosity dt = Ok u' /\ Forall2 (implicitly_diffused (dt * viscosity)) u u') ->
  exists v', implicit_diffusion_navier_stokes density viscosity dt (default_convect dt) diffusion_solve solve None v = Ok v' /\
    periodic_velocity g o bs v' /\ forall i, momentum v' i = momentum v i.
Proof. exact (@implicit_step_conserves_momentum_lem). Qed.
Print Assumptions implicit_step_conserves_momentum.

(** C49. One step of implicit_diffusion_navier_stokes, with any forcing, whose pressure solver solves its Poisson equation and whose diffusion solver solves its equation with viscosity * dt >= 0, returns a velocity of zero divergence in every cell: implicit diffusion after the projection does not spoil incompressibility. *)
Theorem implicit_step_divergence_free : forall g o bs density viscosity dt diffusion_solve solve forcing v,
  (0 < gndim g)%nat -> length o = gndim g -> periodic_velocity g o bs v -> solves_poisson g o solve -> (0 <= dt * viscosity)%R ->
  (forall u, periodic_velocity g o bs u -> exists u', diffusion_solve u viscosity dt = Ok u' /\ Forall2 (implicitly_diffused (dt * viscosity)) u u') ->
  (forall f, forcing = Some f -> exists lf Fo, f v = Ok lf /\ fields_at g v lf Fo) ->
  exists v' d, implicit_diffusion_navier_stokes density viscosity dt (default_convect dt) diffusion_solve solve forcing v = Ok v' /\
    periodic_velocity g o bs v' /\ divergence v' = Ok d /\ is_field d g o (fun _ => 0%R).
Proof. exact (@implicit_step_divergence_free_lem). Qed.
Print Assumptions implicit_step_divergence_free.

(** C49. solve_fast_diag of the diffusion module, the default diffusion solver, is an exact diffusion solver for staggered periodic velocities in any dimension (at least 3 cells per axis, viscosity * dt >= 0, usable implementation), so the two theorems above hold with the default solvers. *)
Theorem default_diffusion_solver : forall tpu eigh imp g o bs nu dt u, (0 < gndim g)%nat -> (0 <= dt * nu)%R ->
  (forall a, (a < gndim g)%nat -> (3 <= nth a (gshape g) 0)%nat) ->
  (forall oo b Ls, perbc g b -> laplacian_matrix_w_boundaries g oo b = Ok Ls -> implementation_ready eigh Ls true imp) ->
  periodic_velocity g o bs u ->
  exists u', diffusion_solve_fast_diag tpu eigh u nu dt imp = Ok u' /\ Forall2 (implicitly_diffused (dt * nu)) u u'.
Proof. exact (@default_diffusion_solver_lem). Qed.
Print Assumptions default_diffusion_solver.

(** The hypotheses are met by a concrete case. *)
Example default_diffusion_solver_ex : forall eigh, (0 < gndim p34g)%nat /\ (0 <= 1 * 3)%R /\ (forall a, (a < gndim p34g)%nat -> (3 <= nth a (gshape p34g) 0)%nat) /\
  (forall oo b Ls, perbc p34g b -> laplacian_matrix_w_boundaries p34g oo b = Ok Ls -> implementation_ready eigh Ls true (Some Fft)) /\
  periodic_velocity p34g half2 [periodic_bc 2; periodic_bc 2] p34v.
Proof. exact (@default_diffusion_solver_ex_lem). Qed.

(** The hypotheses are met by a concrete case. *)
Example implicit_step_equation_ex : forall tpu eigh, exists lc C lf Fo,
  (0 < gndim p34g)%nat /\ length half2 = gndim p34g /\ periodic_velocity p34g half2 [periodic_bc 2; periodic_bc 2] p34v /\
  default_convect 1 p34v = Ok lc /\ fields_at p34g p34v lc C /\ push p34v = Ok lf /\ fields_at p34g p34v lf Fo /\
  pressure_solver p34g half2 (fun v _ b => pressure_solve_fast_diag tpu eigh (1 / 1000) v (Some b) (Some Fft)) /\
  (forall u, periodic_velocity p34g half2 [periodic_bc 2; periodic_bc 2] u -> exists u', p34_ds tpu eigh u 3 1 = Ok u' /\ Forall2 (implicitly_diffused (1 * 3)) u u').
Proof. exact (@implicit_step_equation_ex_lem). Qed.

(** The hypotheses are met by a concrete case. *)
Example implicit_step_conserves_momentum_ex : forall tpu eigh,
  (0 < gndim p34g)%nat /\ length half2 = gndim p34g /\ periodic_velocity p34g half2 [periodic_bc 2; periodic_bc 2] p34v /\
  pressure_solver p34g half2 (fun v _ b => pressure_solve_fast_diag tpu eigh (1 / 1000) v (Some b) (Some Fft)) /\
  (forall u, periodic_velocity p34g half2 [periodic_bc 2; periodic_bc 2] u -> exists u', p34_ds tpu eigh u 3 1 = Ok u' /\ Forall2 (implicitly_diffused (1 * 3)) u u') /\
  momentum p34v 0 = 4%R.
Proof. exact (@implicit_step_conserves_momentum_ex_lem). Qed.

(** The hypotheses are met by a concrete case. *)
Example implicit_step_divergence_free_ex : forall tpu eigh,
  (0 < gndim p34g)%nat /\ length half2 = gndim p34g /\ periodic_velocity p34g half2 [periodic_bc 2; periodic_bc 2] p34v /\
  solves_poisson p34g half2 (fun v _ b => pressure_solve_fast_diag tpu eigh (1 / 1000) v (Some b) (Some Fft)) /\ (0 <= 1 * 3)%R /\
  (forall u, periodic_velocity p34g half2 [periodic_bc 2; periodic_bc 2] u -> exists u', p34_ds tpu eigh u 3 1 = Ok u' /\ Forall2 (implicitly_diffused (1 * 3)) u u') /\
  (forall f, Some push = Some f -> exists lf Fo, f p34v = Ok lf /\ fields_at p34g p34v lf Fo).
Proof. exact (@implicit_step_divergence_free_ex_lem). Qed.

(** C49. The implicit step does not use the kinematic viscosity viscosity / density: for a shear flow without convection and forcing, with viscosity 1, density 2 and dt 1, the result does not satisfy u_new - dt (viscosity / density) Laplacian u_new = u. *)
Theorem implicit_kinematic_viscosity_refuted : exists v v', periodic_velocity p34g half2 [periodic_bc 2; periodic_bc 2] v /\
  implicit_diffusion_navier_stokes 2 1 1 (fun v => Ok (map (fun u => mkga (afull (gshape p34g) 0%R) (goff (garray u)) p34g) v))
    (p34_ds false (fun A => (A, A))) (fun _ _ _ => Ok (mkga (afull (gshape p34g) 0%R) half2 p34g)) None v = Ok v' /\
  (exists d, divergence v = Ok d /\ is_field d p34g half2 (fun _ => 0%R)) /\
  ~ Forall2 (implicitly_diffused (1 * (1 / 2))) v v'.
Proof. exact (@implicit_kinematic_viscosity_refuted_lem). Qed.
Print Assumptions implicit_kinematic_viscosity_refuted.
