(** * Vocabulary for implicit subgrid diffusion *)
From Verif Require Import Prelude NdArr Grids_model Spec Boundaries_model FD_model TimeStep_model SpecNS.
Set Implicit Arguments.

(** An inner (conjugate gradient) solver that may fail, but when it returns, returns one field per component
    that solves the equation [op] x = w. *)
Definition inner_solver (g : grid) (o : list Q) (b : bcs) (op : list garr -> result (list garr)) (cg : (list garr -> result (list garr)) -> list garr -> result (list garr)) : Prop :=
  forall w x, periodic_velocity g o (repeat b (gndim g)) w -> cg op (map garray w) = Ok x ->
    (exists X, fields_at g w x X) /\ exists y, op x = Ok y /\ fields_at g w y (vval w).
