(** Generated by tools/gen.py from EncoderMoreProps.v: property theorems only. *)
From Verif Require Import Prelude NdArr Grids_model Spec SpecRollout ArrayUtils_model PRep ArrayUtilsProps Networks_model NetworksProps Rollout_model EncoderProps.
From Verif Require Import EncoderMoreProps.
Local Open Scope Z_scope.
Set Implicit Arguments.

(** C63. slice_last_n_state_encoder for every time axis (negative ones included) and n >= 1, on every collection of arrays of one rank having that axis: whatever the time axis is, the last min(n, T) entries along the first axis (of length T) are kept, in order, and then the axis named as time axis is moved to the end. *)
Theorem slice_last_n_any_axis : forall (A : Type) n time_axis (x : list (arr A)), 1 <= n -> x <> [] -> (forall a b, In a x -> In b x -> ndim a = ndim b) -> (forall a, In a x -> exists ax, denotes time_axis (ndim a) ax) ->
  exists y, slice_last_n_state_encoder n time_axis x = Ok y /\
    Forall2 (fun a p => forall ax, denotes time_axis (ndim a) ax ->
      let T := nth 0 (shp a) 0%nat in let m := Nat.min (Z.to_nat n) T in let s := m :: tl (shp a) in
      shp p = without ax s ++ [nth ax s 0%nat] /\
      forall ix, inb s ix -> get p (without ax ix ++ [nth ax ix 0]) = get a (Z.of_nat (T - m) + hd 0 ix :: tl ix)) x y.
Proof. exact (@slice_last_n_any_axis_lem). Qed.
Print Assumptions slice_last_n_any_axis.

(** The hypotheses are met by a concrete case. *)
Example slice_last_n_any_axis_ex : denotes 1 (ndim enc_a) 1 /\ match slice_last_n_state_encoder 1 1 [enc_a] with Ok [p] => shp p = [1%nat; 3%nat] /\ get p [0; 2] = 12 | _ => False end.
Proof. exact (@slice_last_n_any_axis_ex_lem). Qed.

(** C63. stack_last_n_state_encoder of one array, for every time axis and n >= 1: the same slices along the first axis with the named axis moved to the end. *)
Theorem stack_last_n_one_array : forall (A : Type) n time_axis (a : arr A) ax, 1 <= n -> denotes time_axis (ndim a) ax ->
  let T := nth 0 (shp a) 0%nat in let m := Nat.min (Z.to_nat n) T in let s := m :: tl (shp a) in
  exists q, stack_last_n_state_encoder n time_axis [a] = Ok q /\ shp q = without ax s ++ [nth ax s 0%nat] /\
    forall ix, inb s ix -> get q (without ax ix ++ [nth ax ix 0]) = get a (Z.of_nat (T - m) + hd 0 ix :: tl ix).
Proof. exact (@stack_last_n_one_array_lem). Qed.
Print Assumptions stack_last_n_one_array.

(** The hypotheses are met by a concrete case. *)
Example stack_last_n_one_array_ex : denotes 1 (ndim enc_a) 1 /\ match stack_last_n_state_encoder 1 1 [enc_a] with Ok p => shp p = [1%nat; 3%nat] /\ get p [0; 2] = 12 | _ => False end.
Proof. exact (@stack_last_n_one_array_ex_lem). Qed.
