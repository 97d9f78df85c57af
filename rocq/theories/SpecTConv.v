(** * Vocabulary for transpose convolutions *)
From Verif Require Import Prelude NdArr SpecTile SpecTower.
Set Implicit Arguments.
Local Open Scope Z_scope.

(** The field [x] on a grid that is [s] times finer: its values at every [s]-th cell along every axis, zero in between. *)
Definition spread_out (s : nat) (N : list nat) (c : nat) (x : arr R) : arr R :=
  mkarr (map (Nat.mul s) N ++ [c]) (fun ix =>
    if forallb (fun i => nth i ix 0 mod Z.of_nat s =? 0) (seq 0 (length N)) then get x (map (fun i => nth i ix 0 / Z.of_nat s) (seq 0 (length N)) ++ [nth (length N) ix 0]) else 0%R).
(** The weights with input and output channels exchanged: [w\[taps, o, c\]] as [w\[taps, c, o\]]. *)
Definition swap_channels (d : nat) (w : list Z -> R) : list Z -> R := fun tx => w (firstn d tx ++ [nth (S d) tx 0; nth d tx 0]).
(** The weights with the taps of every axis in reverse order. *)
Definition reverse_taps (K : list nat) (w : list Z -> R) : list Z -> R :=
  fun tx => w (map (fun i => Z.of_nat (nth i K 0%nat) - 1 - nth i tx 0) (seq 0 (length K)) ++ skipn (length K) tx).
(** Every axis of the grid [N] is longer than the kernel [K] divided by the stride [s] (rounded down). *)
Definition kernel_fits (s : nat) (N K : list nat) : Prop :=
  (1 <= length N <= 3)%nat /\ length K = length N /\ (0 < s)%nat /\ forall i, (i < length N)%nat -> (0 < nth i K 0 /\ nth i K 0 / s < nth i N 0)%nat.
(** Sum of the products of the entries of two arrays of shape [s]. *)
Definition inner (s : list nat) (a b : arr R) : R := asum s (fun ix => (get a ix * get b ix)%R).
