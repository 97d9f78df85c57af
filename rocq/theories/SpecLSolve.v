(** * Vocabulary for solvers with learned interpolation *)
From Verif Require Import Prelude NdArr Grids_model Spec SpecTile SpecLInt.
Set Implicit Arguments.
Local Open Scope R_scope.

(** The average of the cells of the stencil [S] around the point [ix] (wrapped), with weights [W ix]. *)
Definition stencil_average (N S : list nat) (W : list Z -> list Z -> R) (F : list Z -> R) (ix : list Z) : R :=
  asum S (fun t => W (wrap N ix) t * F (cell_at N (map before S) (wrap N ix) t)).
(** Weights [W k ix] on the stencils [fn k] that add up to one. *)
Definition averaging_weights (v : list gvar) (tags : list (option nat)) (fn : list Q * list Q * option nat -> list nat) (W : list Q * list Q * option nat -> list Z -> list Z -> R) : Prop :=
  forall k ix, asked v tags k -> asum (fn k) (W k ix) = 1.
(** The flux of component [j] of [w] through the faces normal to axis [i] of its cells: averages of components [i] and [j] half a cell away, multiplied.
    The stencils are chosen by the offsets of the components of [v]. *)
Definition learned_flux (g : grid) (v : list gvar) (fn : list Q * list Q * option nat -> list nat) (W : list Q * list Q * option nat -> list Z -> list Z -> R)
  (tc tu : option nat) (w : list gvar) (i j : nat) (ix : list Z) : R :=
  let off a := match nth_error v a with Some u => goff (garray u) | None => [] end in
  let kc := (off j, half_a_cell i (off j), tc) in
  let ku := (off i, half_a_cell j (off i), tu) in
  stencil_average (gshape g) (fn kc) (W kc) (vval w j) ix * stencil_average (gshape g) (fn ku) (W ku) (vval w i) ix.
