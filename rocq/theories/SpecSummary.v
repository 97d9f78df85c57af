(** * Specification vocabulary for C89: means over some dimensions *)
From Verif Require Import Prelude NdArr Skill_model Summary_model.
Set Implicit Arguments.

(** [mask] marks the dimensions averaged over: the cells that agree with [ix] on the others, how many of them there are, and the mean of [f] over them. *)
Fixpoint same_group (mask : list bool) (ix jx : list Z) : bool :=
  match mask, ix, jx with
  | m :: mask', i :: ix', j :: jx' => (m || (i =? j)%Z) && same_group mask' ix' jx'
  | _, _, _ => true
  end.
Definition group_sum (mask : list bool) (s : list nat) (f : list Z -> R) (ix : list Z) : R :=
  asum s (fun jx => if same_group mask ix jx then f jx else 0)%R.
Definition group_mean (mask : list bool) (s : list nat) (f : list Z -> R) (ix : list Z) : R :=
  (group_sum mask s f ix / group_sum mask s (fun _ => 1) ix)%R.
(** An array over models and [s]; its values for the model at position [k]. *)
Definition of_model (a : arr R) (k : nat) (ix : list Z) : R := get a (Z.of_nat k :: ix).
(** The dimensions of a summary over the samples and the first [ndim] of the three spatial dimensions. *)
Definition summarised (ndim : nat) (d : xdim) : bool :=
  match d with DSample => true | DSpace k => (k <? ndim)%nat && (k <? 3)%nat | DTime | DOther _ => false end.
(** A fraction of the cells of the group of [ix]: the number of those where [P] holds over the number of them. *)
Definition group_fraction (mask : list bool) (s : list nat) (P : list Z -> bool) (ix : list Z) : R :=
  group_mean mask s (fun jx => if P jx then 1 else 0)%R ix.
(** [a] holds, for each of the distinct [models], the values of one observable over dimensions [dims] of sizes [s]. *)
Definition predictions (models : list nat) (dims : list xdim) (s : list nat) (a : arr R) : Prop :=
  NoDup models /\ shp a = length models :: s /\ length dims = length s /\ asize s <> 0%nat.
(** The cells left by a summary: averaged dimensions keep size one. *)
Definition summary_cell (ndim : nat) (dims : list xdim) (s : list nat) (ix : list Z) : Prop :=
  inb (kept (map (summarised ndim) dims) s) ix.
