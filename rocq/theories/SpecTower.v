(** * Vocabulary for convolutional towers *)
From Verif Require Import Prelude NdArr SpecTile.
Set Implicit Arguments.
Local Open Scope Z_scope.

(** Number of cells a kernel of [k] taps spans when the taps are [rate] cells apart. *)
Definition span (rate k : nat) : nat := (rate * (k - 1) + 1)%nat.
(** Correlation of the periodic array [x] with the weights [w] plus the bias [b]: taps [rate] cells apart around the cell [stride * ix], the tap
    number [t] of an axis with [k] taps being [rate * t - span / 2] cells away. *)
Definition dilated_correlation (N K : list nat) (cin rate stride : nat) (w : list Z -> R) (b : Z -> R) (x : arr R) (ix : list Z) (o : Z) : R :=
  (b o + asum (K ++ [cin]) (fun tx => get x (cell_at N (map (fun k => span rate k / 2)%nat K) (map (Z.mul (Z.of_nat stride)) ix)
            (map (Z.mul (Z.of_nat rate)) (firstn (length K) tx)) ++ [nth (length K) tx 0%Z]) * w (tx ++ [o])))%R.
(** Tiles of shape [m] are wide enough for the kernel [K]: no tap reaches over more than the neighbouring tile. *)
Definition tile_holds (rate : nat) (K m : list nat) : Prop :=
  length K = length m /\ (0 < rate)%nat /\ forall i, (i < length m)%nat -> (0 < nth i m 0 /\ 0 < nth i K 0 /\ span rate (nth i K 0%nat) / 2 <= nth i m 0)%nat.
(** Tiles of shape [m] are wide enough for every layer (kernel, rate, stride) of a tower, every stride divides the tiles it gets. *)
Fixpoint tiles_hold (m : list nat) (layers : list (list nat * (nat * nat))) : Prop :=
  match layers with
  | [] => True
  | (K, (rate, stride)) :: rest => tile_holds rate K m /\ (0 < stride)%nat /\ exists n, m = map (Nat.mul stride) n /\ tiles_hold n rest
  end.
(** One cell of output per how many cells of input, along every axis. *)
Definition total_stride (layers : list (list nat * (nat * nat))) : nat := fold_right Nat.mul 1%nat (map (fun l => snd (snd l)) layers).
(** A setting given once for all [n] layers, or for each of them. *)
Definition per_layer (n : nat) (a : nat + list nat) : list nat := match a with inl k => repeat k n | inr l => l end.
(** The layers of a tower: the hidden ones and the output layer. *)
Definition tower_layers (n : nat) (kernels : list (list nat)) (rates strides : nat + list nat) (out : list nat * (nat * nat)) : list (list nat * (nat * nat)) :=
  combine kernels (combine (per_layer n rates) (per_layer n strides)) ++ [out].
(** As many kernels, rates and strides as hidden layers. *)
Definition one_per_layer (n : nat) (kernels : list (list nat)) (rates strides : nat + list nat) : Prop :=
  length kernels = n /\ length (per_layer n rates) = n /\ length (per_layer n strides) = n.
(** The layout of the tiles: one tile when none is given. *)
Definition layout_for (N : list nat) (layout : option (list nat)) : list nat := match layout with Some L => L | None => repeat 1%nat (length N) end.
(** [y] holds at every cell what [x] holds [k] cells further, on the periodic grid [N], in each of [c] channels. *)
Definition moved (k : list Z) (N : list nat) (c : nat) (x y : arr R) : Prop :=
  channels_last x N c /\ channels_last y N c /\ forall ix o, inb (N ++ [c]) (ix ++ [o]) -> get y (ix ++ [o]) = get x (cell_at N [] ix k ++ [o]).
(** Both networks accept [cin] channels over [N] and return [cout] channels over [N']; if the second gets what the first gets but moved by [s * k] cells, it
    returns what the first returns but moved by [k] cells.  ([k = 0] says that they agree on equal inputs.) *)
Definition moves_along (N : list nat) (cin s : nat) (N' : list nat) (cout : nat) (T1 T2 : arr R -> result (arr R)) : Prop :=
  forall k x1 x2, length k = length N -> moved (map (Z.mul (Z.of_nat s)) k) N cin x1 x2 ->
    exists y1 y2, T1 x1 = Ok y1 /\ T2 x2 = Ok y2 /\ moved k N' cout y1 y2.
(** Every cell of channel [o] holds [v o]. *)
Definition uniform (N : list nat) (c : nat) (v : Z -> R) (x : arr R) : Prop :=
  channels_last x N c /\ forall ix o, inb (N ++ [c]) (ix ++ [o]) -> get x (ix ++ [o]) = v o.
(** A scaling of fields over [d] axes that keeps shapes and does not care where on the grid things are. *)
Definition plain_scaling (d : nat) (f : arr R -> result (arr R)) : Prop :=
  forall N c, length N = d -> (forall i, (i < length N)%nat -> (0 < nth i N 0)%nat) -> moves_along N c 1 N c f f.
(** Two cells of an array of shape [s] that differ along [axes] only. *)
Definition same_slice (s axes : list nat) (ix jx : list Z) : Prop :=
  inb s ix /\ inb s jx /\ forall i, ~ In i axes -> nth i jx 0 = nth i ix 0.
