(** * Vocabulary for learned interpolation *)
From Verif Require Import Prelude NdArr Grids_model Tiling_model SpecTile SpecStencil.
Set Implicit Arguments.
Local Open Scope R_scope.

(** The linear solver solves every system of one or two equations that has exactly one solution. *)
Definition solves_small (solve : list (list R) -> list R -> result (list R)) : Prop :=
  forall A b c, (1 <= length A <= 2)%nat -> (forall row, In row A -> length row = length A) -> length c = length A -> solves A b c ->
    (forall c', length c' = length A -> solves A b c' -> c' = c) -> exists c', solve A b = Ok c'.
(** The offset [o] moved by half a cell along axis [j]. *)
Definition half_a_cell (j : nat) (o : list Q) : list Q := upd j (nth j o 0 + (1 # 2))%Q o.
(** The weight of cell [t] of [S] cells in linear interpolation to a point [shift] cells after the cell number [before S]:
    two cells for an even number of cells, one for an odd number. *)
Definition middle_weight (S : nat) (shift : R) (t : Z) : R :=
  if Nat.even S then (if (t =? Z.of_nat (before S))%Z then 1 - shift else if (t =? Z.of_nat (before S) + 1)%Z then shift else 0)
  else if (t =? Z.of_nat (before S))%Z then 1 else 0.
(** A network that, on [cin] input channels over the grid [N], returns any requested number of output channels over [N]. *)
Definition keeps_grid (N : list nat) (cin : nat) (tower : nat -> arr R -> result (arr R)) : Prop :=
  forall n x, channels_last x N cin -> exists y, tower n x = Ok y /\ channels_last y N n.
(** The interpolations a learned interpolation knows: from the offset of a component of [v], half a cell along an axis, with a known tag. *)
Definition asked (v : list gvar) (tags : list (option nat)) (k : list Q * list Q * option nat) : Prop :=
  exists u j t, In u v /\ (j < length (goff (garray u)))%nat /\ In t tags /\ k = (goff (garray u), half_a_cell j (goff (garray u)), t).
(** A stencil size that depends on the values of the offsets only. *)
Definition by_value (fn : list Q * list Q * option nat -> list nat) : Prop :=
  forall o o' p p' t, off_eq o o' -> off_eq p p' -> fn (o, p, t) = fn (o', p', t).
(** Windows of shape [S] fit the tiles of the layout. *)
Definition has_room (N : list nat) (layout : option (list nat)) (S : list nat) : Prop :=
  exists m, tiled_by N (match layout with Some L => L | None => repeat 1%nat (length N) end) m /\ forall i, (i < length N)%nat -> (nth i S 0 / 2 <= nth i m 0)%nat.
(** Implementation options that make sense for stencils of shapes [sizes]. *)
Definition options_fit (N : list nat) (sizes : list nat -> Prop) (pm : patch_method) (fuse_constraints fuse_patches constrain_with_conv : bool) (layout : option (list nat)) : Prop :=
  pm <> POther /\ (pm = PConv -> forall S, sizes S -> has_room N layout S) /\
  (fuse_constraints = true -> (forall L, layout = Some L -> exists m, tiled_by N L m) /\ (constrain_with_conv = true -> layout <> None) /\
     (fuse_patches = true -> exists S, (forall S', sizes S' -> S' = S) /\ has_room N layout S)).
(** A grid with equal steps, velocity components on it, stencil sizes of at least two cells, a network that keeps the grid, a linear solver and a
    singular value decomposition that work. *)
Definition learned_setting (solve : list (list R) -> list R -> result (list R)) (svd : list (list R) -> list (list R)) (g : grid) (v : list gvar) (tags : list (option nat))
  (fn : list Q * list Q * option nat -> list nat) (tower : nat -> arr R -> result (arr R)) : Prop :=
  correct_solver solve /\ solves_small solve /\ correct_svd svd /\ (exists h, h <> 0 /\ gstep g = repeat h (gndim g)) /\ (0 < gndim g)%nat /\ (forall i, (i < gndim g)%nat -> (0 < nth i (gshape g) 0)%nat) /\
  v <> [] /\ tags <> [] /\ (forall u, In u v -> shp (gdata (garray u)) = gshape g /\ length (goff (garray u)) = gndim g) /\ by_value fn /\
  (forall k, asked v tags k -> length (fn k) = gndim g /\ (forall i, (i < gndim g)%nat -> (0 < nth i (fn k) 0)%nat) /\ (2 <= fold_right Nat.mul 1 (fn k))%nat) /\
  keeps_grid (gshape g) (length v) tower.
(** [c] is a field on the cells of [g], at offset [o]. *)
Definition cell_data (g : grid) (o : list Q) (c : gvar) : Prop :=
  off_eq (goff (garray c)) o /\ shp (gdata (garray c)) = gshape g /\ length (btypes (gbc c)) = gndim (ggrid (garray c)).
(** [r] is [c] carried to [offset]: same grid and boundary conditions, values [F]. *)
Definition carried (g : grid) (c : gvar) (offset : list Q) (F : list Z -> R) (r : gvar) : Prop :=
  gbc r = gbc c /\ ggrid (garray r) = ggrid (garray c) /\ goff (garray r) = offset /\ shp (gdata (garray r)) = gshape g /\
  forall ix, inb (gshape g) ix -> get (gdata (garray r)) ix = F ix.
