(** * Vocabulary for skill metrics *)
From Verif Require Import Prelude NdArr.
Set Implicit Arguments.

(** Two indices agree on every axis that is not marked in [mask]. *)
Fixpoint agree (mask : list bool) (ix jx : list Z) : Prop :=
  match mask, ix, jx with
  | m :: mask', i :: ix', j :: jx' => (if m then True else i = j) /\ agree mask' ix' jx'
  | _, [], [] => True
  | _, _, _ => False
  end.
(** [c] depends only on the axes that are not marked. *)
Definition constant_along (mask : list bool) (c : list Z -> R) : Prop := forall ix jx, agree mask ix jx -> c ix = c jx.
(** Value stored under a key of a dictionary (0 if absent), and the sum of such values over a list. *)
Fixpoint lookup0 (m : list (nat * R)) (k : nat) : R :=
  match m with [] => 0%R | (k', v) :: m' => if (k =? k')%nat then v else lookup0 m' k end.
Definition rlist_sum (l : list R) : R := fold_right Rplus 0%R l.
(** Sum of the squared differences of two arrays over the positions whose index along axis [ax] is selected. *)
Definition sq_dist_where (ax : nat) (selected : Z -> bool) (a b : arr R) : R :=
  asum (shp a) (fun ix => if selected (nth ax ix 0%Z) then ((get a ix - get b ix) * (get a ix - get b ix))%R else 0%R).
(** Two trajectories whose components have pairwise equal shapes, one rank, and [steps] entries along axis [ax]. *)
Definition matched (ax rank steps : nat) (trajectory target : list (arr R)) : Prop :=
  trajectory <> [] /\ (ax < rank)%nat /\
  Forall2 (fun a b => shp a = shp b /\ length (shp a) = rank /\ nth ax (shp a) 0%nat = steps) trajectory target.
