(** * Specification vocabulary for C87: energies of states, and a scalar field as a state *)
From Verif Require Import Prelude NdArr Grids_model Spec TimeStep_model.
Set Implicit Arguments.

(** A real inner product on states (possibly ignoring some positions). *)
Definition inner_product {X} (ip : vec X -> vec X -> R) : Prop :=
  (forall u v, ip u v = ip v u) /\ (forall u v w, ip (vadd u v) w = ip u w + ip v w)%R /\
  (forall c u w, ip (vscal c u) w = c * ip u w)%R /\ (forall u, 0 <= ip u u)%R.
Definition energy {X} (ip : vec X -> vec X -> R) (u : vec X) : R := ip u u.
(** Linearity, and linear orthogonal projections, with respect to [ip]. *)
Definition is_linear {X} (L : vec X -> vec X) : Prop :=
  (forall u v, L (vadd u v) = vadd (L u) (L v)) /\ (forall c u, L (vscal c u) = vscal c (L u)).
Definition orthogonal_projection {X} (ip : vec X -> vec X -> R) (P : vec X -> vec X) : Prop :=
  is_linear P /\ (forall u, P (P u) = P u) /\ (forall u v, ip (P u) v = ip u (P v)).
(** The values of a state as a variable with the cells and boundary conditions of [c], and back; a state is indexed by cells. *)
Definition state_var (c : gvar) (u : vec (list Z)) : gvar :=
  mkgv (mkga (mkarr (gshape (ggrid (garray c))) u) (goff (garray c)) (ggrid (garray c))) (gbc c).
(** The right-hand side [rhs] as a map of states (zero outside the cells, and where [rhs] fails). *)
Definition tendency (c : gvar) (rhs : gvar -> result garr) (u : vec (list Z)) : vec (list Z) :=
  fun ix => if inbb (gshape (ggrid (garray c))) ix then match rhs (state_var c u) with Ok w => get (gdata w) ix | Err _ => 0%R end else 0%R.
Definition cell_product (g : grid) (u v : vec (list Z)) : R := asum (gshape g) (fun ix => u ix * v ix)%R.
