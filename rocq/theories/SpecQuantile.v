(** * Counting *)
From Verif Require Import Prelude.
(** How many elements of a list satisfy [P]. *)
Fixpoint how_many (P : R -> Prop) (dec : forall x, {P x} + {~ P x}) (l : list R) : nat :=
  match l with [] => O | x :: l' => ((if dec x then 1 else 0) + how_many P dec l')%nat end.
Definition between_dec (M x : R) : {(- M <= x <= M)%R} + {~ (- M <= x <= M)%R}.
Proof. destruct (Rle_dec (- M) x); [destruct (Rle_dec x M)|]; [left | right | right]; lra. Defined.
