(** * Vocabulary for spectra of real fields on two-dimensional grids *)
From Verif Require Import Prelude NdArr Cplx.
Set Implicit Arguments.
Local Open Scope Z_scope.

(** [rfftn] of an n x m real field stores the wave vectors (a, b) with b = 0 .. m/2; row i holds a = i, or i - n in the
    second half of the rows. *)
Definition row_wave (n : nat) (i : Z) : Z := if 2 * i <? Z.of_nat n then i else i - Z.of_nat n.
(** The wave numbers kept by the 2/3 rule as implemented by brick_wall_filter_2d. *)
Definition kept_rows (n : nat) (a : Z) : Prop := - ((2 * Z.of_nat n / 3 + 1) / 2) <= a < 2 * Z.of_nat n / 3 / 2.
Definition kept_columns (m : nat) (b : Z) : Prop := 0 <= b < 2 * Z.of_nat (m / 2 + 1)%nat / 3.
(** A (half) spectrum that vanishes at all wave vectors that are not kept. *)
Definition band_limited (n m : nat) (W : arr cplx) : Prop :=
  forall i b, 0 <= i < Z.of_nat n -> 0 <= b <= Z.of_nat (m / 2) -> ~ (kept_rows n (row_wave n i) /\ kept_columns m b) -> get W [i; b] = C0.
(** All wave vectors in the spectrum have the same length: [(a/Lx)^2 + (b/Ly)^2 = k2] wherever it does not vanish, apart from the
    mean mode. *)
Definition one_wave_length (n m : nat) (Lx Ly k2 : R) (W : arr cplx) : Prop :=
  forall i b, 0 <= i < Z.of_nat n -> 0 <= b <= Z.of_nat (m / 2) -> (i <> 0 \/ b <> 0) ->
    get W [i; b] = C0 \/ ((IZR (row_wave n i) / Lx) ^ 2 + (IZR b / Ly) ^ 2)%R = k2.
