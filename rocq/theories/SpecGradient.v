(** * What a gradient is: vectors of parameters are lists of reals *)
From Verif Require Import Prelude.

Definition vplus (p h : list R) : list R := map (fun ab => (fst ab + snd ab)%R) (combine p h).
Definition vscale (c : R) (p : list R) : list R := map (fun x => (c * x)%R) p.
Definition vdotl (p h : list R) : R := fold_right Rplus 0%R (map (fun ab => (fst ab * snd ab)%R) (combine p h)).
Definition vabs (p : list R) : R := fold_right (fun x s => (Rabs x + s)%R) 0%R p.
(** [g] is the gradient of [f] at [p]: [f (p + h) = f p + g . h] up to an error that is small compared with [h]. *)
Definition is_gradient (f : list R -> R) (p g : list R) : Prop :=
  length g = length p /\
  forall eps, (0 < eps)%R -> exists delta, (0 < delta)%R /\
    forall h, length h = length p -> (vabs h < delta)%R -> (Rabs (f (vplus p h) - f p - vdotl g h) <= eps * vabs h)%R.
