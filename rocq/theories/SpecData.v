(** * Vocabulary for post-processing diagnostics *)
From Verif Require Import Prelude NdArr Cplx.
Set Implicit Arguments.

(** A coordinate with at least two equally spaced increasing values, [h] apart. *)
Definition uniform_axis (c : nat * (Z -> R)) (h : R) : Prop :=
  (2 <= fst c)%nat /\ (0 < h)%R /\ forall i, snd c i = (snd c 0%Z + IZR i * h)%R.
(** The same for the values the coordinate really has. *)
Definition spaced_axis (c : nat * (Z -> R)) (h : R) : Prop :=
  (2 <= fst c)%nat /\ (0 < h)%R /\ forall i, (0 <= i < Z.of_nat (fst c))%Z -> snd c i = (snd c 0%Z + IZR i * h)%R.
(** k . (x - x_0): the phase of the wave with wave vector number [ix] at grid point number [jx]. *)
Fixpoint phase (ks xs : list (nat * (Z -> R))) (ix jx : list Z) : R :=
  match ks, xs, ix, jx with
  | k :: ks', x :: xs', i :: ix', j :: jx' => (snd k i * (snd x j - snd x 0%Z) + phase ks' xs' ix' jx')%R
  | _, _, _, _ => 0%R
  end.
(** Wave number magnitude of entry [ix]. *)
Fixpoint wave_square (ks : list (nat * (Z -> R))) (ix : list Z) : R :=
  match ks, ix with k :: ks', i :: ix' => (snd k i ^ 2 + wave_square ks' ix')%R | _, _ => 0%R end.
Definition wave_magnitude (ks : list (nat * (Z -> R))) (ix : list Z) : R := sqrt (wave_square ks ix).
(** Energy of the modes whose wave number lies in the half-open shell (a, b]. *)
Definition shell_energy (s : list nat) (ks : list (nat * (Z -> R))) (e : list Z -> R) (a b : R) : R :=
  asum s (fun ix => if Rlt_dec a (wave_magnitude ks ix) then if Rle_dec (wave_magnitude ks ix) b then e ix else 0%R else 0%R).
