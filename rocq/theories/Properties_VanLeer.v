(** Generated by tools/gen.py from VanLeerProps.v: property theorems only. *)
From Coq Require Import Qreals.
From Verif Require Import Prelude NdArr Grids_model Spec Boundaries_model BoundariesPeriodic FD_model PRep FDProofs FDProps Interp_model InterpProofs InterpProps UpwindProps PressureProps Advection_model AdvectionProofs AdvectionProps VanLeerProofs.
From Verif Require Import VanLeerProps.
Local Open Scope Z_scope.
Set Implicit Arguments.

(** C54. For a periodic scalar whose offset lies in [1/2, 1) on every axis (cell-centred scalars in particular), or on a one-dimensional grid at offset 0 or in [1/2, 1], advected by periodic velocities at any offsets, advect_van_leer with any padding mode returns the upwind flux corrected by the van Leer limiter in flux form: the same grid, offset and numbers as advect_van_leer_using_limiters. *)
Theorem van_leer_implementations_agree : forall c v dt mode, periodic_field c -> (0 < gndim (ggrid (garray c)))%nat ->
  periodic_vec (ggrid (garray c)) v -> homogeneous_vec v -> van_leer_offset (goff (garray c)) ->
  exists w w', advect_van_leer c v dt mode = Ok w /\ advect_van_leer_using_limiters c v dt = Ok w' /\
    ggrid w = ggrid w' /\ off_eq (goff w) (goff w') /\ aeq (gdata w) (gdata w') /\
    is_field w (ggrid (garray c)) (goff (garray c))
    (fun ix => - outflow (ggrid (garray c)) (fun i jx =>
       let l := pval (garray c) (prev i jx) in let a := pval (garray c) jx in
       let b := pval (garray c) (next i jx) in let n := pval (garray c) (shiftix i 2 jx) in
       let ui := face_velocity c v i jx in let cn := (dt * ui / hstep (ggrid (garray c)) i)%R in
       (if Rlt_dec 0 ui then a + / 2 * (1 - cn) * van_leer_limiter (safe_div (a - l) (b - a)) * (b - a)
        else b + / 2 * (1 + cn) * van_leer_limiter (safe_div (n - b) (b - a)) * (a - b)) * ui) ix)%R.
Proof. exact (@van_leer_implementations_agree_lem). Qed.
Print Assumptions van_leer_implementations_agree.

(** The hypotheses are met by a concrete case. *)
Example van_leer_implementations_agree_ex :
  periodic_field ipc /\ (0 < gndim (ggrid (garray ipc)))%nat /\ periodic_vec (ggrid (garray ipc)) ipv /\ homogeneous_vec ipv /\
  van_leer_offset (goff (garray ipc)) /\ van_leer_offset [1%Q] /\ van_leer_offset [0%Q].
Proof. exact (@van_leer_implementations_agree_ex_lem). Qed.

(** C54. The agreement does not extend to scalars on the faces of a staggered grid: a periodic scalar at offset (1, 1/2) that vanishes in the whole column x = 0, carried by the velocity (0, 1), gets from advect_van_leer a non-zero tendency in that column (the limiter correction is computed from the neighbouring column), while advect_van_leer_using_limiters returns 0 there. *)
Theorem van_leer_staggered_refuted : exists c v dt w w', periodic_field c /\ periodic_vec (ggrid (garray c)) v /\ homogeneous_vec v /\
  off_eq (goff (garray c)) [1%Q; (1 # 2)%Q] /\
  (forall y, get (gdata (garray c)) [0%Z; y] = 0%R) /\
  (forall ix, vval v 0 ix = 0%R) /\ (forall ix, vval v 1 ix = 1%R) /\
  advect_van_leer c v dt MIRROR = Ok w /\ advect_van_leer_using_limiters c v dt = Ok w' /\
  get (gdata w) [0%Z; 1%Z] = (- 1 / 4)%R /\ get (gdata w') [0%Z; 1%Z] = 0%R.
Proof. exact (@van_leer_staggered_refuted_lem). Qed.
Print Assumptions van_leer_staggered_refuted.
