(** Generated by tools/gen.py from AdvectionProps.v: property theorems only. *)
From Coq Require Import Qreals.
From Verif Require Import Prelude NdArr Grids_model Spec Boundaries_model BoundariesPeriodic FD_model PRep FDProofs FDProps WallBC WallBCProps ImposeProps Pressure_model PressureProps Interp_model InterpProofs InterpProps UpwindProps TvdProps Advection_model AdvectionProofs.
From Verif Require Import AdvectionProps.
Local Open Scope Z_scope.
Set Implicit Arguments.

(** C27. Linear advection of a periodic scalar by periodic velocities returns, at the scalar's offset, minus the net outflow of (scalar linearly interpolated to the face) times (velocity linearly interpolated to the face). *)
Theorem advect_linear_flux_form : forall c v dt, periodic_field c -> (0 < gndim (ggrid (garray c)))%nat ->
  periodic_vec (ggrid (garray c)) v -> homogeneous_vec v ->
  exists w, advect_linear c v dt = Ok w /\ is_field w (ggrid (garray c)) (goff (garray c))
    (fun ix => - outflow (ggrid (garray c)) (fun a jx =>
       lerp (gndim (ggrid (garray c))) (goff (garray c)) (offs a (1 # 2) (goff (garray c))) (pval (garray c)) jx
       * face_velocity c v a jx) ix)%R.
Proof. exact (@advect_linear_flux_form_lem). Qed.
Print Assumptions advect_linear_flux_form.

(** The hypotheses are met by a concrete case. *)
Example advect_linear_flux_form_ex :
  periodic_field ipc /\ (0 < gndim (ggrid (garray ipc)))%nat /\ periodic_vec (ggrid (garray ipc)) ipv /\ homogeneous_vec ipv.
Proof. exact (@advect_linear_flux_form_ex_lem). Qed.

(** C27. Upwind advection of a periodic scalar by periodic velocities returns, at the scalar's offset, minus the net outflow of (value of the cell upstream of the face) times (velocity linearly interpolated to the face). *)
Theorem advect_upwind_flux_form : forall c v dt, periodic_field c -> (0 < gndim (ggrid (garray c)))%nat ->
  periodic_vec (ggrid (garray c)) v -> homogeneous_vec v ->
  exists w, advect_upwind c v dt = Ok w /\ is_field w (ggrid (garray c)) (goff (garray c))
    (fun ix => - outflow (ggrid (garray c)) (fun a jx =>
       (if Rlt_dec 0 (face_velocity c v a jx) then pval (garray c) jx else pval (garray c) (next a jx))
       * face_velocity c v a jx) ix)%R.
Proof. exact (@advect_upwind_flux_form_lem). Qed.
Print Assumptions advect_upwind_flux_form.

(** The hypotheses are met by a concrete case. *)
Example advect_upwind_flux_form_ex :
  periodic_field ipc /\ (0 < gndim (ggrid (garray ipc)))%nat /\ periodic_vec (ggrid (garray ipc)) ipv /\ homogeneous_vec ipv /\
  exists w, advect_upwind ipc ipv 1 = Ok w /\ get (gdata w) [1; 0] = (- 9 / 2)%R.
Proof. exact (@advect_upwind_flux_form_ex_lem). Qed.

(** C27. Flux-limited advection (any limiter phi over Lax-Wendroff; van_leer_using_limiters is the case phi = van Leer) returns, at the scalar's offset, minus the net outflow of (upwind value corrected by phi(r)/2 (1 - |C|) times the jump across the face) times (velocity linearly interpolated to the face). *)
Theorem advect_limited_flux_form : forall phi c v dt, periodic_field c -> (0 < gndim (ggrid (garray c)))%nat ->
  periodic_vec (ggrid (garray c)) v -> homogeneous_vec v ->
  exists w, advect_general c v linear_fn (apply_tvd_limiter lax_wendroff phi) dt = Ok w /\
   is_field w (ggrid (garray c)) (goff (garray c))
    (fun ix => - outflow (ggrid (garray c)) (fun i jx =>
       let l := pval (garray c) (prev i jx) in let a := pval (garray c) jx in
       let b := pval (garray c) (next i jx) in let n := pval (garray c) (shiftix i 2 jx) in
       let ui := face_velocity c v i jx in let cn := (dt * ui / hstep (ggrid (garray c)) i)%R in
       (if Rlt_dec 0 ui then a + / 2 * (1 - cn) * phi (safe_div (a - l) (b - a)) * (b - a)
        else b + / 2 * (1 + cn) * phi (safe_div (n - b) (b - a)) * (a - b)) * ui) ix)%R.
Proof. exact (@advect_limited_flux_form_lem). Qed.
Print Assumptions advect_limited_flux_form.

(** The hypotheses are met by a concrete case. *)
Example advect_limited_flux_form_ex :
  periodic_field ipc /\ (0 < gndim (ggrid (garray ipc)))%nat /\ periodic_vec (ggrid (garray ipc)) ipv /\ homogeneous_vec ipv /\
  forall c v dt, advect_van_leer_using_limiters c v dt = advect_general c v linear_fn (apply_tvd_limiter lax_wendroff van_leer_limiter) dt.
Proof. exact (@advect_limited_flux_form_ex_lem). Qed.

(** C27. Whatever the interpolation methods (as long as what they return are periodic velocities, and scalars, filling the scalar's grid), whenever advect_general returns, the sum of the tendency over all cells is zero. *)
Theorem advect_general_conserves : forall c v ui ci dt w,
  wfg (ggrid (garray c)) -> (0 < gndim (ggrid (garray c)))%nat ->
  (forall u o x, In u v -> ui u o v dt = Ok x -> periodic_field x /\ ggrid (garray x) = ggrid (garray c)) ->
  (forall o av x, ci c o av dt = Ok x -> wf_garr (garray x) /\ ggrid (garray x) = ggrid (garray c)) ->
  advect_general c v ui ci dt = Ok w -> total (gdata w) = 0%R.
Proof. exact (@advect_general_conserves_lem). Qed.
Print Assumptions advect_general_conserves.

(** The hypotheses are met by a concrete case. *)
Example advect_general_conserves_ex :
  wfg (ggrid (garray ipc)) /\ (0 < gndim (ggrid (garray ipc)))%nat /\
  (forall u o x, In u ipv -> linear_fn u o ipv 1%R = Ok x -> periodic_field x /\ ggrid (garray x) = ggrid (garray ipc)) /\
  exists w, advect_linear ipc ipv 1 = Ok w.
Proof. exact (@advect_general_conserves_ex_lem). Qed.

(** C27. Linear, upwind and flux-limited advection of a periodic scalar by periodic (homogeneous) velocities always return, and the sum of the returned tendency over all cells is zero. *)
Theorem advection_schemes_conserve : forall c v dt, periodic_field c -> (0 < gndim (ggrid (garray c)))%nat ->
  periodic_vec (ggrid (garray c)) v -> homogeneous_vec v ->
  (exists w, advect_linear c v dt = Ok w /\ total (gdata w) = 0%R) /\
  (exists w, advect_upwind c v dt = Ok w /\ total (gdata w) = 0%R) /\
  (exists w, advect_van_leer_using_limiters c v dt = Ok w /\ total (gdata w) = 0%R).
Proof. exact (@advection_schemes_conserve_lem). Qed.
Print Assumptions advection_schemes_conserve.

(** The hypotheses are met by a concrete case. *)
Example advection_schemes_conserve_ex :
  periodic_field ipc /\ (0 < gndim (ggrid (garray ipc)))%nat /\ periodic_vec (ggrid (garray ipc)) ipv /\ homogeneous_vec ipv.
Proof. exact (@advection_schemes_conserve_ex_lem). Qed.

(** C27. advect_general (hence every scheme built on it) raises NotImplementedError for a scalar with a lower side that is not periodic. *)
Theorem advect_general_unsupported : forall c v ui ci dt a,
  (a < gndim (ggrid (garray c)))%nat -> ~ lower_periodic (gbc c) a -> length (btypes (gbc c)) = gndim (ggrid (garray c)) ->
  advect_general c v ui ci dt = Err ENotImpl.
Proof. exact (@advect_general_unsupported_lem). Qed.
Print Assumptions advect_general_unsupported.

(** The hypotheses are met by a concrete case. *)
Example advect_general_unsupported_ex : (1 < gndim (ggrid (garray ipn)))%nat /\ ~ lower_periodic (gbc ipn) 1 /\ length (btypes (gbc ipn)) = gndim (ggrid (garray ipn)).
Proof. exact (@advect_general_unsupported_ex_lem). Qed.

(** C27. With linearly interpolated velocities, advection never returns a tendency when some velocity component has boundary conditions that are not homogeneous (the flux condition at the walls is then unknown). *)
Theorem advect_inhomogeneous_velocity : forall c v ci dt i u w, nth_error v i = Some u -> (i < length (goff (garray c)))%nat ->
  bhom (gbc u) = false -> advect_general c v linear_fn ci dt <> Ok w.
Proof. exact (@advect_inhomogeneous_velocity_lem). Qed.
Print Assumptions advect_inhomogeneous_velocity.

(** The hypotheses are met by a concrete case. *)
Example advect_inhomogeneous_velocity_ex : exists u, nth_error [mkgv (garray ipu) (mkbc [(Periodic, Periodic); (Periodic, Periodic)] [(None, None); (None, None)] false); ipw] 0 = Some u /\
  (0 < length (goff (garray ipc)))%nat /\ bhom (gbc u) = false.
Proof. exact (@advect_inhomogeneous_velocity_ex_lem). Qed.

(** C28. Advecting a constant scalar by a staggered periodic velocity gives, with the linear, upwind and every flux-limited scheme, minus the constant times the discrete divergence of the velocity; it is zero everywhere when the library's divergence of the velocity is. *)
Theorem advection_of_constant : forall c v dt k d, periodic_field c -> (0 < gndim (ggrid (garray c)))%nat ->
  periodic_vec (ggrid (garray c)) v -> homogeneous_vec v -> face_aligned (goff (garray c)) v ->
  constant_field c k -> divergence v = Ok d ->
  forall w, (advect_linear c v dt = Ok w \/ advect_upwind c v dt = Ok w \/
             exists phi, advect_general c v linear_fn (apply_tvd_limiter lax_wendroff phi) dt = Ok w) ->
  is_field w (ggrid (garray c)) (goff (garray c)) (fun ix => - (k * get (gdata d) ix))%R.
Proof. exact (@advection_of_constant_lem). Qed.
Print Assumptions advection_of_constant.

(** The hypotheses are met by a concrete case. *)
Example advection_of_constant_ex :
  periodic_field ipk /\ periodic_vec (ggrid (garray ipk)) ipv /\ homogeneous_vec ipv /\ face_aligned (goff (garray ipk)) ipv /\
  constant_field ipk 7 /\ exists d, divergence ipv = Ok d /\ forall ix, inb (gshape ipg) ix -> get (gdata d) ix = 0%R.
Proof. exact (@advection_of_constant_ex_lem). Qed.
