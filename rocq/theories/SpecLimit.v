(** * Vocabulary for flux-limited interpolation *)
From Verif Require Import Prelude NdArr Grids_model Spec.
Set Implicit Arguments.
Local Open Scope R_scope.

(** The interpolation [f], asked to carry [c] to [offset] along the velocities [v], returns the values [H] there. *)
Definition answers (f : gvar -> list Q -> list gvar -> R -> result gvar) (c : gvar) (offset : list Q) (v : list gvar) (dt : R) (H : list Z -> R) : Prop :=
  exists ch, f c offset v dt = Ok ch /\ is_field (garray ch) (ggrid (garray c)) offset H.
(** The value of [c] in the cell the flow [ui] comes from, at the face after cell [ix] on axis [ax]. *)
Definition upwind_cell (c : gvar) (ax : nat) (ui : R) (ix : list Z) : R :=
  if Rlt_dec 0 ui then pval (garray c) ix else pval (garray c) (next ax ix).
(** The jump of [c] over that face, and over the face one cell upstream of it. *)
Definition jump_at (c : gvar) (ax : nat) (ix : list Z) : R := pval (garray c) (next ax ix) - pval (garray c) ix.
Definition jump_upstream (c : gvar) (ax : nat) (ui : R) (ix : list Z) : R :=
  if Rlt_dec 0 ui then pval (garray c) ix - pval (garray c) (prev ax ix)
  else pval (garray c) (shiftix ax 2 ix) - pval (garray c) (next ax ix).
(** The ratio of the two jumps, the smoothness a limiter looks at. Over a face without a jump the code divides by one instead. *)
Definition smoothness (c : gvar) (ax : nat) (ui : R) (ix : list Z) : R :=
  jump_upstream c ax ui ix / (if Req_EM_T (jump_at c ax ix) 0 then 1 else jump_at c ax ix).
(** The value at the face: the upwind value, moved towards the value [H] of the unlimited interpolation by the factor [phi (smoothness)]. *)
Definition limited_to (phi : R -> R) (c : gvar) (ax : nat) (ui H : R) (ix : list Z) : R :=
  upwind_cell c ax ui ix + phi (smoothness c ax ui ix) * (H - upwind_cell c ax ui ix).
(** [x] lies between [a] and [b]. *)
Definition between (a b x : R) : Prop := Rmin a b <= x <= Rmax a b.
