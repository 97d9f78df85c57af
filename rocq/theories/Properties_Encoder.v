(** Generated by tools/gen.py from EncoderProps.v: property theorems only. *)
From Coq Require Import Qreals.
From Verif Require Import Prelude NdArr Grids_model Spec SpecNS SpecRollout Boundaries_model BoundariesPeriodic FD_model Interp_model ArrayUtils_model PRep FDProofs FDProps InterpProofs InterpProps ArrayUtilsProps PressureProps PressureSolveProps EquationsProps ConvectProps Networks_model NetworksProps ForcingsProps InitProps SkillProps Rollout_model RolloutProps RolloutMoreProps.
From Verif Require Import EncoderProps.
Local Open Scope Z_scope.
Set Implicit Arguments.

(** C63. aligned_array_encoder on any grid and any number of snapshots T > 0: it returns one periodic variable per component, on the cell faces, holding exactly the last snapshot; aligned_array_decoder gives these arrays back, so decoding an encoded state reproduces the last input frame. *)
Theorem aligned_encoder_last_frame : forall g T x, wfg g -> (0 < T)%nat -> snapshots g T x ->
  exists v, aligned_array_encoder g x = Ok v /\ length v = gndim g /\ length (aligned_array_decoder v) = gndim g /\
    forall i, (i < gndim g)%nat -> gbc (nth i v dgv) = periodic_bc (gndim g) /\
      is_field (garray (nth i v dgv)) g (nth i (cell_faces g) []) (fun ix => get (nth i x darr0) (Z.of_nat (T - 1) :: ix)) /\
      shp (nth i (aligned_array_decoder v) darr0) = gshape g /\
      forall ix, inb (gshape g) ix -> get (nth i (aligned_array_decoder v) darr0) ix = get (nth i x darr0) (Z.of_nat (T - 1) :: ix).
Proof. exact (@aligned_encoder_last_frame_lem). Qed.
Print Assumptions aligned_encoder_last_frame.

(** The hypotheses are met by a concrete case. *)
Example aligned_encoder_last_frame_ex : wfg enc_g /\ snapshots enc_g 2 enc_x /\ exists v, aligned_array_encoder enc_g enc_x = Ok v /\ get (nth 0 (aligned_array_decoder v) darr0) [0] = 8%R.
Proof. exact (@aligned_encoder_last_frame_ex_lem). Qed.

(** C63. Collocated data through a staggered solver and back: for every grid and T > 0 snapshots, collocated_to_staggered_encoder gives on each face the mean of the two cells it separates in the last snapshot (periodic), and staggered_to_collocated_decoder of that has in every cell a quarter of the previous, half of its own and a quarter of the next cell along the component's own axis: a smoothing that keeps the total of each component but is not the identity. *)
Theorem collocated_round_trip : forall g T x, wfg g -> (0 < T)%nat -> snapshots g T x ->
  let F i := wrapped (gshape g) (fun ix => get (nth i x darr0) (Z.of_nat (T - 1) :: ix)) in
  exists v y, collocated_to_staggered_encoder g x = Ok v /\ length v = gndim g /\ staggered_to_collocated_decoder g v = Ok y /\ length y = gndim g /\
    forall i, (i < gndim g)%nat ->
      is_field (garray (nth i v dgv)) g (nth i (cell_faces g) []) (fun ix => (F i ix + F i (next i ix)) / 2)%R /\
      shp (nth i y darr0) = gshape g /\
      (forall ix, inb (gshape g) ix -> get (nth i y darr0) ix = ((F i (prev i ix) + 2 * F i ix + F i (next i ix)) / 4)%R) /\
      asum (gshape g) (get (nth i y darr0)) = asum (gshape g) (F i).
Proof. exact (@collocated_round_trip_lem). Qed.
Print Assumptions collocated_round_trip.

(** The hypotheses are met by a concrete case. *)
Example collocated_round_trip_ex : wfg enc_g /\ snapshots enc_g 2 enc_x /\ exists v y, collocated_to_staggered_encoder enc_g enc_x = Ok v /\ staggered_to_collocated_decoder enc_g v = Ok y /\ get (nth 0 y darr0) [0] = 4%R /\ get (nth 0 y darr0) [1] = 2%R.
Proof. exact (@collocated_round_trip_ex_lem). Qed.

(** C63. Decoding an encoded collocated state does not reproduce the last input frame in general. *)
Theorem collocated_round_trip_identity_refuted : ~ (forall g T x, wfg g -> (0 < T)%nat -> snapshots g T x ->
  exists v y, collocated_to_staggered_encoder g x = Ok v /\ staggered_to_collocated_decoder g v = Ok y /\
    forall i ix, (i < gndim g)%nat -> inb (gshape g) ix -> get (nth i y darr0) ix = get (nth i x darr0) (Z.of_nat (T - 1) :: ix)).
Proof. exact (@collocated_round_trip_identity_refuted_lem). Qed.
Print Assumptions collocated_round_trip_identity_refuted.

(** C63. slice_last_state_encoder for every collection of arrays of one rank and every time axis (negative ones included) with at least one entry: each output is the last slice along that axis, the axis being dropped. *)
Theorem slice_last_state_encoder_spec : forall (A : Type) time_axis (x : list (arr A)), x <> [] -> (forall a b, In a x -> In b x -> ndim a = ndim b) ->
  (forall a, In a x -> exists ax, denotes time_axis (ndim a) ax /\ (0 < nth ax (shp a) 0)%nat) ->
  exists y, slice_last_state_encoder time_axis x = Ok y /\
    Forall2 (fun a p => exists ax, denotes time_axis (ndim a) ax /\ slice_of ax (nth ax (shp a) 0 - 1)%nat a p) x y.
Proof. exact (@slice_last_state_encoder_spec_lem). Qed.
Print Assumptions slice_last_state_encoder_spec.

(** The hypotheses are met by a concrete case. *)
Example slice_last_state_encoder_spec_ex : (forall a, In a [enc_a] -> exists ax, denotes (-1) (ndim a) ax /\ (0 < nth ax (shp a) 0)%nat) /\
  match slice_last_state_encoder (-1) [enc_a] with Ok [p] => shp p = [2%nat] /\ get p [1] = 12 | _ => False end.
Proof. exact (@slice_last_state_encoder_spec_ex_lem). Qed.

(** C63. slice_last_n_state_encoder with time axis 0 and n >= 1, for every collection of arrays of one positive rank: each output has the time axis last with min(n, T) entries, and its entry k is frame T - min(n, T) + k of the input, so these are the last n frames in order. *)
Theorem slice_last_n_state_encoder_spec : forall (A : Type) n (x : list (arr A)), 1 <= n -> x <> [] -> (forall a b, In a x -> In b x -> ndim a = ndim b) -> (forall a, In a x -> (0 < ndim a)%nat) ->
  exists y, slice_last_n_state_encoder n 0 x = Ok y /\
    Forall2 (fun a p => let T := nth 0 (shp a) 0%nat in let m := Nat.min (Z.to_nat n) T in shp p = tl (shp a) ++ [m] /\ forall k ix, get p (ix ++ [Z.of_nat k]) = get a (Z.of_nat (T - m + k) :: ix)) x y.
Proof. exact (@slice_last_n_state_encoder_spec_lem). Qed.
Print Assumptions slice_last_n_state_encoder_spec.

(** The hypotheses are met by a concrete case. *)
Example slice_last_n_state_encoder_spec_ex : 1 <= 1 /\ match slice_last_n_state_encoder 1 0 [enc_a] with Ok [p] => shp p = [3%nat; 1%nat] /\ get p [2; 0] = 12 | _ => False end.
Proof. exact (@slice_last_n_state_encoder_spec_ex_lem). Qed.

(** C63. slice_last_n_state_encoder ignores time_axis when slicing: it does not return the last n slices along the given time axis unless that axis is the first. *)
Theorem slice_last_n_other_axis_refuted : ~ (forall (A : Type) n time_axis (a p : arr A) ax, 1 <= n -> denotes time_axis (ndim a) ax -> slice_last_n_state_encoder n time_axis [a] = Ok [p] ->
  shp p = without ax (shp a) ++ [Nat.min (Z.to_nat n) (nth ax (shp a) 0%nat)]).
Proof. exact (@slice_last_n_other_axis_refuted_lem). Qed.
Print Assumptions slice_last_n_other_axis_refuted.

(** C63. stack_last_n_state_encoder with time axis 0 and n >= 1 on one or more arrays of a common shape T :: s: the result has shape s with a last axis of (number of arrays) * min(n, T) channels, channel c * min(n, T) + k holding frame T - min(n, T) + k of array c. *)
Theorem stack_last_n_state_encoder_spec : forall (A : Type) n T s (x : list (arr A)) (d : arr A), 1 <= n -> x <> [] -> (forall a, In a x -> shp a = T :: s) ->
  let m := Nat.min (Z.to_nat n) T in
  exists y, stack_last_n_state_encoder n 0 x = Ok y /\ shp y = s ++ [(length x * m)%nat] /\
    forall c k ix, (c < length x)%nat -> (k < m)%nat -> inb s ix -> get y (ix ++ [Z.of_nat (c * m + k)]) = get (nth c x d) (Z.of_nat (T - m + k) :: ix).
Proof. exact (@stack_last_n_state_encoder_spec_lem). Qed.
Print Assumptions stack_last_n_state_encoder_spec.

(** The hypotheses are met by a concrete case. *)
Example stack_last_n_state_encoder_spec_ex : (forall a, In a [enc_a; enc_a] -> shp a = [2%nat; 3%nat]) /\ match stack_last_n_state_encoder 5 0 [enc_a; enc_a] with Ok p => shp p = [3%nat; 4%nat] /\ map (get p) [[2; 0]; [2; 1]; [2; 3]] = [2; 12; 12] | _ => False end.
Proof. exact (@stack_last_n_state_encoder_spec_ex_lem). Qed.

(** C63. The slicing encoders refuse (ValueError) inputs without any array and inputs whose arrays have different ranks, for every time axis and n. *)
Theorem slice_encoders_refuse : forall (A : Type) n time_axis (x : list (arr A)),
  (x = [] \/ exists a b, In a x /\ In b x /\ ndim a <> ndim b) ->
  slice_last_state_encoder time_axis x = Err EValue /\ slice_last_n_state_encoder n time_axis x = Err EValue /\ stack_last_n_state_encoder n time_axis x = Err EValue.
Proof. exact (@slice_encoders_refuse_lem). Qed.
Print Assumptions slice_encoders_refuse.

(** The hypotheses are met by a concrete case. *)
Example slice_encoders_refuse_ex : In enc_a [enc_a; mkarr [5%nat] (fun _ => 0)] /\ In (mkarr [5%nat] (fun _ => 0)) [enc_a; mkarr [5%nat] (fun _ => 0)] /\ ndim enc_a <> ndim (mkarr [5%nat] (fun _ => 0)).
Proof. exact (@slice_encoders_refuse_ex_lem). Qed.
