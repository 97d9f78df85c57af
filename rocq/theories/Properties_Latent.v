(** Generated by tools/gen.py from LatentProps.v: property theorems only. *)
From Verif Require Import Prelude NdArr Grids_model Spec SpecNS SpecRollout Boundaries_model BoundariesPeriodic FD_model Interp_model ArrayUtils_model PRep FDProofs FDProps InterpProofs InterpProps ArrayUtilsProps PressureProps PressureSolveProps EquationsProps ConvectProps Networks_model NetworksProps Viscosities_model VortCodec_model Rollout_model RolloutProps RolloutMoreProps EncoderProps Latent_model.
From Verif Require Import LatentProps.
Local Open Scope Z_scope.
Set Implicit Arguments.

(** C82. channels_split_decoder on any array with n >= 1 channels returns n arrays, the k-th being channel k. *)
Theorem channels_split_decoder_spec : forall (s : list nat) (n : nat) (x : arr R), shp x = s ++ [n] -> (0 < n)%nat ->
  exists l, channels_split_decoder x = Ok l /\ length l = n /\ forall k d, (k < n)%nat -> shp (nth k l d) = s /\ forall ix, inb s ix -> get (nth k l d) ix = get x (ix ++ [Z.of_nat k]).
Proof. exact (@channels_split_decoder_spec_lem). Qed.
Print Assumptions channels_split_decoder_spec.

(** The hypotheses are met by a concrete case. *)
Example channels_split_decoder_spec_ex : shp (mkarr [3; 2]%nat (fun ix => IZR (nth 0 ix 0 * 2 + nth 1 ix 0))) = [3%nat] ++ [2%nat] /\ (0 < 2)%nat.
Proof. exact (@channels_split_decoder_spec_ex_lem). Qed.

(** C82. A latent codec loses nothing but what its networks lose: for any encoder and decoder networks such that the decoder undoes the encoder on arrays of the shape it is given, latent_decoder applied to latent_encoder (one frame, time axis 0) of any non-empty tuple of trajectories of a common shape returns the last frame of every trajectory, in order. *)
Theorem latent_codec_roundtrip : forall (encoder decoder : arr R -> result (arr R)) (T : nat) (s : list nat) (x : list (arr R)), x <> [] -> (1 <= T)%nat -> (forall a, In a x -> shp a = T :: s) ->
  (forall y, shp y = s ++ [length x] -> exists z w, encoder y = Ok z /\ decoder z = Ok w /\ shp w = shp y /\ forall ix, inb (shp y) ix -> get w ix = get y ix) ->
  exists z l, latent_encoder encoder 1 0 x = Ok z /\ latent_decoder decoder z = Ok l /\ length l = length x /\
    forall k d, (k < length x)%nat -> shp (nth k l d) = s /\ forall ix, inb s ix -> get (nth k l d) ix = get (nth k x d) (Z.of_nat (T - 1) :: ix).
Proof. exact (@latent_codec_roundtrip_lem). Qed.
Print Assumptions latent_codec_roundtrip.

(** The hypotheses are met by a concrete case. *)
Example latent_codec_roundtrip_ex : lat_x <> [] /\ (1 <= 2)%nat /\ (forall a, In a lat_x -> shp a = 2%nat :: [3%nat]) /\
  (forall y : arr R, shp y = [3%nat] ++ [length lat_x] -> exists z w, (fun y => Ok (amap (fun v => 2 * v)%R y)) y = Ok z /\ (fun z => Ok (amap (fun v => v / 2)%R z)) z = Ok w /\ shp w = shp y /\ forall ix, inb (shp y) ix -> get w ix = get y ix).
Proof. exact (@latent_codec_roundtrip_ex_lem). Qed.

(** C82. aligned_latent_encoder: whatever the network, if it returns an array with c channels on the grid, the result has min(c, number of offsets) variables (offsets: data_offsets, or the cell faces when none are given), the k-th holding channel k at offset k on the grid with periodic boundary conditions; and when 1 <= c <= number of offsets, aligned_latent_decoder with any network sees exactly that array again: it returns what latent_decoder returns on an array with the same shape and values. *)
Theorem aligned_latent_codec : forall (g : grid) (encoder decoder : arr R -> result (arr R)) (n axis : Z) (offsets : option (list (list Q))) (x : list (arr R)) (y raw : arr R) (c : nat),
  stack_last_n_state_encoder n axis x = Ok y -> encoder y = Ok raw -> shp raw = gshape g ++ [c] ->
  let offs := match offsets with Some (o :: os) => o :: os | _ => cell_faces g end in
  exists vs, aligned_latent_encoder g encoder n axis offsets x = Ok vs /\ length vs = Nat.min c (length offs) /\
    (forall k d, (k < length vs)%nat -> gbc (nth k vs d) = periodic_bc (gndim g) /\ is_field (garray (nth k vs d)) g (nth k offs []) (fun ix => get raw (ix ++ [Z.of_nat k]))) /\
    ((1 <= c <= length offs)%nat -> exists raw', shp raw' = shp raw /\ (forall ix, inb (shp raw) ix -> get raw' ix = get raw ix) /\ aligned_latent_decoder decoder vs = latent_decoder decoder raw').
Proof. exact (@aligned_latent_codec_lem). Qed.
Print Assumptions aligned_latent_codec.

(** The hypotheses are met by a concrete case. *)
Example aligned_latent_codec_ex : exists y, stack_last_n_state_encoder 1 0 [mkarr [2; 3; 4]%nat (fun ix => IZR (nth 1 ix 0)); mkarr [2; 3; 4]%nat (fun ix => IZR (nth 2 ix 0))] = Ok y /\ shp y = gshape p34g ++ [2%nat] /\ (fun a => Ok a) y = Ok y /\ (1 <= 2 <= length (cell_faces p34g))%nat.
Proof. exact (@aligned_latent_codec_ex_lem). Qed.

(** C82. aligned_latent_encoder does not keep num_latent_dims channels (refuted): on every grid, for every number c of latent channels above the number of dimensions, with the default offsets the result has only as many variables as the grid has dimensions; the channels beyond are dropped without an error. *)
Theorem aligned_latent_encoder_keeps_channels_refuted : ~ (forall (g : grid) (encoder : arr R -> result (arr R)) (x : list (arr R)) (y raw : arr R) (vs : list gvar),
  stack_last_n_state_encoder 1 0 x = Ok y -> encoder y = Ok raw -> aligned_latent_encoder g encoder 1 0 None x = Ok vs -> length vs = last (shp raw) 0%nat).
Proof. exact (@aligned_latent_encoder_keeps_channels_refuted_lem). Qed.
Print Assumptions aligned_latent_encoder_keeps_channels_refuted.

(** C82. velocity_corrector_network_w_boundaries: with process_fn given, for any network, when the processed inputs and the outputs of the network are periodic variables on the grid, every input is linearly interpolated to its network offset before the network, and every output of the network to its cell face after it; the result has one variable per dimension, on the grid, at the cell faces. *)
Theorem corrector_w_boundaries : forall (g : grid) (tower : list gvar -> result (list gvar)) (offs : list (list Q)) (f : list gvar -> result (list gvar)) (inputs u y : list gvar),
  (0 < gndim g)%nat -> length offs = gndim g -> (forall o, In o offs -> length o = gndim g) -> f inputs = Ok u -> periodic_vec g u ->
  (forall x, length x = gndim g -> (forall k d, (k < gndim g)%nat -> linear_interp (nth k u d) (nth k offs []) = Ok (nth k x d)) -> tower x = Ok y) -> periodic_vec g y ->
  exists r, velocity_corrector_network_w_boundaries g tower offs (Some f) inputs = Ok r /\ length r = gndim g /\
    forall k d, (k < gndim g)%nat -> linear_interp (nth k y d) (nth k (cell_faces g) []) = Ok (nth k r d) /\ ggrid (garray (nth k r d)) = g /\ off_eq (goff (garray (nth k r d))) (nth k (cell_faces g) []).
Proof. exact (@corrector_w_boundaries_lem). Qed.
Print Assumptions corrector_w_boundaries.

(** The hypotheses are met by a concrete case. *)
Example corrector_w_boundaries_ex : (0 < gndim p34g)%nat /\ length [[1 # 2; 1 # 2]; [1 # 2; 1 # 2]]%Q = gndim p34g /\ (forall o, In o [[1 # 2; 1 # 2]; [1 # 2; 1 # 2]]%Q -> length o = gndim p34g) /\ (fun u : list gvar => Ok u) p34v = Ok p34v /\ periodic_vec p34g p34v /\
  (forall x : list gvar, length x = gndim p34g -> (forall k d, (k < gndim p34g)%nat -> linear_interp (nth k p34v d) (nth k [[1 # 2; 1 # 2]; [1 # 2; 1 # 2]]%Q []) = Ok (nth k x d)) -> (fun _ : list gvar => Ok p34v) x = Ok p34v).
Proof. exact (@corrector_w_boundaries_ex_lem). Qed.

(** C82. velocity_corrector_network_w_boundaries does not work with its default process_fn (refuted): whatever the grid, network, offsets and inputs, the call raises TypeError, because the default is a function of three arguments that is called with one. *)
Theorem corrector_w_boundaries_default_refuted : forall (g : grid) (tower : list gvar -> result (list gvar)) (offs : list (list Q)) (inputs : list gvar),
  velocity_corrector_network_w_boundaries g tower offs None inputs = Err EType.
Proof. exact (@corrector_w_boundaries_default_refuted_lem). Qed.
Print Assumptions corrector_w_boundaries_default_refuted.
