(** Generated by tools/gen.py from TvdProps.v: property theorems only. *)
From Coq Require Import Qreals.
From Verif Require Import Prelude NdArr Grids_model Spec Boundaries_model BoundariesPeriodic FD_model PRep FDProofs FDProps Interp_model InterpProofs InterpProps UpwindProps.
From Verif Require Import TvdProps.
Local Open Scope Z_scope.
Set Implicit Arguments.

(** C26. Interpolation limited with any limiter function phi, applied to Lax-Wendroff, returns at the face half a cell ahead the upwind value plus phi(r)/2 (1 - |C|) times the jump across the face, r being the ratio of the jump behind to the jump at the face (upwind side). *)
Theorem limited_interpolation_spec : forall c ax o' v u phi dt, periodic_field c -> (ax < gndim (ggrid (garray c)))%nat ->
  off_eq o' (offs ax (1 # 2) (goff (garray c))) -> nth_error v ax = Some u ->
  wf_garr (garray u) -> ggrid (garray u) = ggrid (garray c) -> off_eq (goff (garray u)) o' ->
  exists w, apply_tvd_limiter lax_wendroff phi c o' v dt = Ok w /\ gbc w = gbc c /\
    is_field (garray w) (ggrid (garray c)) o' (fun ix =>
      let l := pval (garray c) (prev ax ix) in let a := get (gdata (garray c)) ix in
      let b := pval (garray c) (next ax ix) in let n := pval (garray c) (shiftix ax 2 ix) in
      let ui := get (gdata (garray u)) ix in let cn := (dt * ui / hstep (ggrid (garray c)) ax)%R in
      if Rlt_dec 0 ui then (a + / 2 * (1 - cn) * phi (safe_div (a - l) (b - a)) * (b - a))%R
      else (b + / 2 * (1 + cn) * phi (safe_div (n - b) (b - a)) * (a - b))%R).
Proof. exact (@limited_interpolation_spec_lem). Qed.
Print Assumptions limited_interpolation_spec.

(** The hypotheses are met by a concrete case. *)
Example limited_interpolation_spec_ex :
  periodic_field ipc /\ off_eq [1%Q; (1 # 2)%Q] (offs 0 (1 # 2) (goff (garray ipc))) /\ off_eq (goff (garray ipu)) [1%Q; (1 # 2)%Q] /\
  exists w, apply_tvd_limiter lax_wendroff van_leer_limiter ipc [1%Q; (1 # 2)%Q] [ipu; ipu] 1%R = Ok w /\ get (gdata (garray w)) [1; 0] = (12 + / 2)%R.
Proof. exact (@limited_interpolation_spec_ex_lem). Qed.

(** C26. With any limiter whose values lie in [0, 2] (the Van Leer limiter does), limited interpolation returns at every face a value between the two cells adjacent to the face, whenever the Courant number there is at most 1 in magnitude. *)
Theorem limited_interpolation_bounded : forall c ax o' v u phi dt w, periodic_field c -> (ax < gndim (ggrid (garray c)))%nat ->
  off_eq o' (offs ax (1 # 2) (goff (garray c))) -> nth_error v ax = Some u ->
  wf_garr (garray u) -> ggrid (garray u) = ggrid (garray c) -> off_eq (goff (garray u)) o' ->
  (forall r, (0 <= phi r <= 2)%R) -> (0 < hstep (ggrid (garray c)) ax)%R -> (0 <= dt)%R ->
  apply_tvd_limiter lax_wendroff phi c o' v dt = Ok w ->
  forall ix, inb (gshape (ggrid (garray c))) ix ->
    (Rabs (dt * get (gdata (garray u)) ix / hstep (ggrid (garray c)) ax) <= 1)%R ->
    (Rmin (get (gdata (garray c)) ix) (pval (garray c) (next ax ix)) <= get (gdata (garray w)) ix
       <= Rmax (get (gdata (garray c)) ix) (pval (garray c) (next ax ix)))%R.
Proof. exact (@limited_interpolation_bounded_lem). Qed.
Print Assumptions limited_interpolation_bounded.

(** The hypotheses are met by a concrete case. *)
Example limited_interpolation_bounded_ex :
  (forall r, (0 <= van_leer_limiter r <= 2)%R) /\ (0 < hstep ipg 0)%R /\
  (exists w, apply_tvd_limiter lax_wendroff van_leer_limiter ipc [1%Q; (1 # 2)%Q] [ipu; ipu] 1%R = Ok w) /\
  (forall ix, inb (gshape ipg) ix -> (Rabs (1 * get (gdata (garray ipu)) ix / hstep ipg 0) <= 1)%R).
Proof. exact (@limited_interpolation_bounded_ex_lem). Qed.

(** C26. Limited interpolation supports only forward interpolation by half a cell: any other displacement raises NotImplementedError. *)
Theorem limited_interpolation_unsupported : forall high phi c q v dt l,
  goff (garray c) = q :: l -> forall q', ~ (q' == q)%Q -> ~ (q' - q == 1 # 2)%Q ->
  apply_tvd_limiter high phi c (q' :: l) v dt = Err ENotImpl.
Proof. exact (@limited_interpolation_unsupported_lem). Qed.
Print Assumptions limited_interpolation_unsupported.

(** The hypotheses are met by a concrete case. *)
Example limited_interpolation_unsupported_ex : goff (garray ipc) = (1 # 2)%Q :: [(1 # 2)%Q] /\ ~ (0 == 1 # 2)%Q /\ ~ (0 - (1 # 2) == 1 # 2)%Q.
Proof. exact (@limited_interpolation_unsupported_ex_lem). Qed.
