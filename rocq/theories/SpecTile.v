(** * Vocabulary for tiled periodic convolutions *)
From Verif Require Import Prelude NdArr.
Set Implicit Arguments.
Local Open Scope Z_scope.

(** [x] has spatial shape [N] and [c] channels on its last axis. *)
Definition channels_last {A} (x : arr A) (N : list nat) (c : nat) : Prop := shp x = N ++ [c].
(** Tiles of shape [m] in [L] rows, columns, ... exactly cover an array of shape [N] (one to three axes). *)
Definition tiled_by (N L m : list nat) : Prop :=
  (1 <= length L <= 3)%nat /\ length N = length L /\ length m = length L /\
  forall i, (i < length L)%nat -> (0 < nth i L 0)%nat /\ nth i N 0%nat = (nth i L 0 * nth i m 0)%nat.
(** Number of the tile with coordinates [b], rows first. *)
Fixpoint tile_number (L : list nat) (b : list Z) : Z :=
  match L, b with n :: L', k :: b' => k * Z.of_nat (fold_right Nat.mul 1%nat L') + tile_number L' b' | _, _ => 0 end.
(** Cell of the whole array that is at [j] in tile [b] when [pad] cells have been put in front of each axis of the
    tile, with periodic continuation. *)
Definition cell_of (N m pad : list nat) (b j : list Z) : list Z :=
  map (fun i => (nth i b 0 * Z.of_nat (nth i m 0%nat) + nth i j 0 - Z.of_nat (nth i pad 0%nat)) mod Z.of_nat (nth i N 0%nat)) (seq 0 (length N)).
(** Cell at distance [t - pad] from cell [ix], with periodic continuation. *)
Definition cell_at (N pad : list nat) (ix t : list Z) : list Z :=
  map (fun i => (nth i ix 0 + nth i t 0 - Z.of_nat (nth i pad 0%nat)) mod Z.of_nat (nth i N 0%nat)) (seq 0 (length N)).
(** Cells before the centre of a window of [k] cells: one less than after it when [k] is even. *)
Definition before (k : nat) : nat := ((k - 1) / 2)%nat.
(** [conv] treats the entries of the batch axis separately; output channel [o] at cell [j] of an entry is the
    quantity [Phi] of the window of [K] cells that starts at [j] (all input channels), whatever the size of the entries. *)
Definition acts_on_windows {A} (conv : arr A -> result (arr A)) (K : list nat) (cin cout : nat) (Phi : (list Z -> Z -> A) -> Z -> A) : Prop :=
  (forall f g o, (forall t cc, inb K t -> 0 <= cc < Z.of_nat cin -> f t cc = g t cc) -> 0 <= o < Z.of_nat cout -> Phi f o = Phi g o) /\
  (forall x B M, shp x = B :: M ++ [cin] -> length M = length K -> (forall i, (i < length K)%nat -> (nth i K 0 <= nth i M 0)%nat) ->
     exists y, conv x = Ok y /\ shp y = B :: map (fun i => (nth i M 0 - nth i K 0 + 1)%nat) (seq 0 (length K)) ++ [cout] /\
       forall k j o, inb (shp y) (k :: j ++ [o]) ->
         get y (k :: j ++ [o]) = Phi (fun t cc => get x (k :: map (fun i => nth i j 0 + nth i t 0) (seq 0 (length K)) ++ [cc])) o).
(** Cross-correlation of the periodic array [x] with [kernel] at cell [ix], output channel [o]. *)
Definition correlate (N K : list nat) (cin : nat) (x kernel : arr R) (ix : list Z) (o : Z) : R :=
  asum (K ++ [cin]) (fun tx => (get x (cell_at N (map before K) ix tx ++ [nth (length K) tx 0%Z]) * get kernel (tx ++ [o]))%R).
