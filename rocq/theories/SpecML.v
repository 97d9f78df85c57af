(** * Vocabulary for models with learned components *)
From Verif Require Import Prelude NdArr Grids_model Spec SpecNS Boundaries_model FD_model Interp_model.
Set Implicit Arguments.

(** An interpolation that may compute any values whatsoever, but puts them where it was asked to:
    on the same grid, at the requested offset, with the boundary conditions of what it interpolates. *)
Definition any_interpolation (g : grid) (f : interp_fn) : Prop :=
  forall c o v dt, periodic_field c -> ggrid (garray c) = g -> bhom (gbc c) = true -> length o = gndim g ->
    exists w F, f c o v dt = Ok w /\ gbc w = gbc c /\ is_field (garray w) g o F.
(** A term of the equation: one field per velocity component, with any values. *)
Definition any_term (g : grid) (o : list Q) (bs : list bcs) (f : list gvar -> result (list garr)) : Prop :=
  forall w, periodic_velocity g o bs w -> exists l F, f w = Ok l /\ fields_at g w l F.
(** A term that creates no momentum. *)
Definition no_net_force (g : grid) (o : list Q) (bs : list bcs) (f : list gvar -> result (list garr)) : Prop :=
  forall w l i x, periodic_velocity g o bs w -> f w = Ok l -> nth_error l i = Some x -> total (gdata x) = 0%R.
(** A network that turns any number of channels over the grid into [n] channels over the grid: any values.
    (Convolutional towers are such networks: theorem [towers_are_any_networks].) *)
Definition any_network (g : grid) (tower : nat -> arr R -> result (arr R)) : Prop :=
  forall n c x, shp x = gshape g ++ [c] -> exists y, tower n x = Ok y /\ shp y = gshape g ++ [n].
