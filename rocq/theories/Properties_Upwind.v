(** Generated by tools/gen.py from UpwindProps.v: property theorems only. *)
From Coq Require Import Qreals.
From Verif Require Import Prelude NdArr Grids_model Spec Boundaries_model BoundariesPeriodic FD_model PRep FDProofs FDProps Interp_model InterpProofs InterpProps.
From Verif Require Import UpwindProps.
Local Open Scope Z_scope.
Set Implicit Arguments.

(** C25. Upwind interpolation of a periodic variable to the face half a cell ahead along one axis, driven by a velocity component located there, returns at the requested offset the value behind the face where the velocity is positive and the value ahead of it otherwise. *)
Theorem upwind_face_spec : forall c ax o' v u, periodic_field c -> (ax < gndim (ggrid (garray c)))%nat ->
  off_eq o' (offs ax (1 # 2) (goff (garray c))) -> nth_error v ax = Some u ->
  wf_garr (garray u) -> ggrid (garray u) = ggrid (garray c) -> (nth ax (goff (garray u)) 0 == nth ax o' 0)%Q ->
  exists w, upwind c o' v = Ok w /\ perbc (ggrid (garray c)) (gbc w) /\
    is_field (garray w) (ggrid (garray c)) o'
      (fun ix => if Rlt_dec 0 (get (gdata (garray u)) ix) then get (gdata (garray c)) ix else pval (garray c) (next ax ix)).
Proof. exact (@upwind_face_spec_lem). Qed.
Print Assumptions upwind_face_spec.

(** The hypotheses are met by a concrete case. *)
Example upwind_face_spec_ex :
  periodic_field ipc /\ off_eq [1%Q; (1 # 2)%Q] (offs 0 (1 # 2) (goff (garray ipc))) /\ nth_error [ipu; ipu] 0 = Some ipu /\
  wf_garr (garray ipu) /\
  exists w, upwind ipc [1%Q; (1 # 2)%Q] [ipu; ipu] = Ok w /\ get (gdata (garray w)) [1; 0] = 10%R /\ get (gdata (garray w)) [3; 1] = 1%R.
Proof. exact (@upwind_face_spec_ex_lem). Qed.

(** C25. In general upwind interpolation along one axis uses the two cells around the position of the velocity component: the lower one where the velocity is positive, the upper one otherwise; when the positions differ by whole cells it is exactly that shift. *)
Theorem upwind_spec : forall c ax q o' v u, periodic_field c -> (ax < gndim (ggrid (garray c)))%nat ->
  off_eq o' (upd ax q (goff (garray c))) -> ~ (q == nth ax (goff (garray c)) 0)%Q -> nth_error v ax = Some u ->
  wf_garr (garray u) -> ggrid (garray u) = ggrid (garray c) ->
  let d := (nth ax (goff (garray u)) 0 - nth ax (goff (garray c)) 0)%Q in
  exists w, upwind c o' v = Ok w /\ perbc (ggrid (garray c)) (gbc w) /\
  (forall z, (d == inject_Z z)%Q -> is_field (garray w) (ggrid (garray c)) o' (fun ix => pval (garray c) (shiftix ax z ix))) /\
  ((forall z, ~ (d == inject_Z z)%Q) ->
     is_field (garray w) (ggrid (garray c)) o'
      (fun ix => if Rlt_dec 0 (get (gdata (garray u)) ix) then pval (garray c) (shiftix ax (Qfloor d) ix) else pval (garray c) (shiftix ax (Qfloor d + 1) ix))).
Proof. exact (@upwind_spec_lem). Qed.
Print Assumptions upwind_spec.

(** The hypotheses are met by a concrete case. *)
Example upwind_spec_ex :
  off_eq [0%Q; (1 # 2)%Q] (upd 0 0%Q (goff (garray ipc))) /\ ~ (0 == nth 0 (goff (garray ipc)) 0)%Q /\
  forall z, ~ (nth 0 (goff (garray ipu)) 0 - nth 0 (goff (garray ipc)) 0 == inject_Z z)%Q.
Proof. exact (@upwind_spec_ex_lem). Qed.

(** C25. Upwind and Lax-Wendroff interpolation to the variable's own offset return the variable itself. *)
Theorem upwind_identity : forall c o' v dt, off_eq (goff (garray c)) o' -> upwind c o' v = Ok c /\ lax_wendroff c o' v dt = Ok c.
Proof. exact (@upwind_identity_lem). Qed.
Print Assumptions upwind_identity.

(** The hypotheses are met by a concrete case. *)
Example upwind_identity_ex : off_eq (goff (garray ipc)) [(2 # 4)%Q; (1 # 2)%Q].
Proof. exact (@upwind_identity_ex_lem). Qed.

(** C25. Upwind and Lax-Wendroff interpolation to an offset that differs on two or more axes raise InconsistentOffsetError. *)
Theorem upwind_two_axes_raises : forall c o' v dt a b, length o' = length (goff (garray c)) -> a <> b ->
  (a < length o')%nat -> (b < length o')%nat ->
  ~ (nth a o' 0 == nth a (goff (garray c)) 0)%Q -> ~ (nth b o' 0 == nth b (goff (garray c)) 0)%Q ->
  upwind c o' v = Err EOffset /\ lax_wendroff c o' v dt = Err EOffset.
Proof. exact (@upwind_two_axes_raises_lem). Qed.
Print Assumptions upwind_two_axes_raises.

(** The hypotheses are met by a concrete case. *)
Example upwind_two_axes_raises_ex : ~ (nth 0 [1%Q; 1%Q] 0 == nth 0 (goff (garray ipc)) 0)%Q /\ ~ (nth 1 [1%Q; 1%Q] 0 == nth 1 (goff (garray ipc)) 0)%Q.
Proof. exact (@upwind_two_axes_raises_ex_lem). Qed.

(** C26. The Van Leer limiter is 0 for r <= 0, lies in [0, 2), is at most 2 r for r > 0, is symmetric (phi(r)/r = phi(1/r)), is monotone, and phi(1) = 1 (second order on smooth data). *)
Theorem van_leer_limiter_bounds : forall r,
  (0 <= van_leer_limiter r < 2)%R /\ ((r <= 0)%R -> van_leer_limiter r = 0%R) /\
  ((0 < r)%R -> (0 < van_leer_limiter r <= 2 * r)%R /\ (van_leer_limiter r / r = van_leer_limiter (1 / r))%R) /\
  van_leer_limiter 1 = 1%R /\ (forall s, (r <= s)%R -> (van_leer_limiter r <= van_leer_limiter s)%R).
Proof. exact (@van_leer_limiter_bounds_lem). Qed.
Print Assumptions van_leer_limiter_bounds.

(** The hypotheses are met by a concrete case. *)
Example van_leer_limiter_bounds_ex : van_leer_limiter 3 = (3 / 2)%R /\ (3 / 2 <= 2 * 3)%R.
Proof. exact (@van_leer_limiter_bounds_ex_lem). Qed.

(** C26. Lax-Wendroff interpolation to the face half a cell ahead returns (a + b)/2 - C (b - a)/2 with a, b the cells behind and ahead and C the Courant number dt u / h, for either direction of flow. *)
Theorem lax_wendroff_face_spec : forall c ax o' v u dt, periodic_field c -> (ax < gndim (ggrid (garray c)))%nat ->
  off_eq o' (offs ax (1 # 2) (goff (garray c))) -> nth_error v ax = Some u ->
  wf_garr (garray u) -> ggrid (garray u) = ggrid (garray c) -> (nth ax (goff (garray u)) 0 == nth ax o' 0)%Q ->
  exists w, lax_wendroff c o' v dt = Ok w /\ perbc (ggrid (garray c)) (gbc w) /\
    is_field (garray w) (ggrid (garray c)) o'
      (fun ix => let a := get (gdata (garray c)) ix in let b := pval (garray c) (next ax ix) in
         ((a + b) / 2 - dt * get (gdata (garray u)) ix / hstep (ggrid (garray c)) ax * (b - a) / 2)%R).
Proof. exact (@lax_wendroff_face_spec_lem). Qed.
Print Assumptions lax_wendroff_face_spec.

(** The hypotheses are met by a concrete case. *)
Example lax_wendroff_face_spec_ex :
  periodic_field ipc /\ off_eq [1%Q; (1 # 2)%Q] (offs 0 (1 # 2) (goff (garray ipc))) /\
  exists w, lax_wendroff ipc [1%Q; (1 # 2)%Q] [ipu; ipu] 1 = Ok w /\ get (gdata (garray w)) [1; 0] = (12 + / 2)%R.
Proof. exact (@lax_wendroff_face_spec_ex_lem). Qed.
