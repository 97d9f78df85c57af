(** Generated by tools/gen.py from ViscosityProps.v: property theorems only. *)
From Verif Require Import Prelude NdArr Grids_model Spec Boundaries_model FD_model PRep FDProofs FDProps Pressure_model Interp_model InterpProofs InterpProps Advection_model AdvectionProps Diffusion_model PressureProps PressureSolveProps TimeStep_model Equations_model SpecNS EquationsProps EquationsMoreProps Forcings_model Subgrid_model SpecSub SubgridProps SubgridMoreProps ArrayUtilsProps SpecML Viscosities_model SpecVisc.
From Verif Require Import ViscosityProps.
Local Open Scope Z_scope.
Set Implicit Arguments.

(** C68. learned_scalar_viscosity with linear interpolation, for every network and every order in which the distinct offsets are listed: on the strain rate of a staggered periodic velocity it succeeds; the network sees one channel per velocity component, in order; and the result has, at the place of each entry of the strain-rate tensor, (viscosity_scale + 1e-6) times the network's only output channel, interpolated linearly from the cell centres. *)
Theorem learned_scalar_viscosity_spec : forall g o unique tower scale v s, (0 < gndim g)%nat -> length o = gndim g -> periodic_vec g v -> lists_distinct unique -> any_network g tower ->
  tensor_at g o s (strain g v) ->
  exists x y m, channels g (gndim g) x (vval v) /\ tower 1%nat x = Ok y /\ learned_scalar_viscosity g linear_fn unique tower scale s v = Ok m /\
    tensor_at g o m (spread g o (fun ix => (scale + / 1000000) * channel y 0 ix)%R).
Proof. exact (@learned_scalar_viscosity_spec_lem). Qed.
Print Assumptions learned_scalar_viscosity_spec.

(** C68. learned_scalar_viscosity_from_gradients: the same, except that the network sees ndim^2 channels, channel i*ndim + j being entry (i, j) of the strain rate interpolated linearly to the cell centres. *)
Theorem learned_viscosity_from_gradients_spec : forall g o unique tower scale v s, (0 < gndim g)%nat -> length o = gndim g -> periodic_vec g v -> lists_distinct unique -> any_network g tower ->
  tensor_at g o s (strain g v) ->
  exists x y m, channels g (gndim g * gndim g) x (fun k => centred_strain g o v (k / gndim g) (k mod gndim g)) /\
    tower 1%nat x = Ok y /\ learned_scalar_viscosity_from_gradients g linear_fn unique tower scale s v = Ok m /\
    tensor_at g o m (spread g o (fun ix => (scale + / 1000000) * channel y 0 ix)%R).
Proof. exact (@learned_viscosity_from_gradients_spec_lem). Qed.
Print Assumptions learned_viscosity_from_gradients_spec.

(** C68. learned_tensor_viscosity, for every network and every order of the distinct offsets: on the strain rate of a staggered periodic velocity it succeeds; the network sees one channel per velocity component and has one output channel per distinct place of the strain-rate tensor; and there is a numbering of the entries, with the same number exactly for entries (i, j) and (j, i), each channel being the number of some entry, such that the viscosity at entry (i, j) is (viscosity_scale + 1e-6) times the output channel of that number. *)
Theorem learned_tensor_viscosity_spec : forall g o unique tower scale v s, (0 < gndim g)%nat -> length o = gndim g -> periodic_vec g v -> lists_distinct unique -> any_network g tower ->
  tensor_at g o s (strain g v) ->
  exists n x y m number, channels g (gndim g) x (vval v) /\ tower n x = Ok y /\ shp y = gshape g ++ [n] /\ learned_tensor_viscosity g unique tower scale s v = Ok m /\
    tensor_at g o m (fun i j ix => (scale + / 1000000) * channel y (number i j) ix)%R /\
    (forall i j, (i < gndim g)%nat -> (j < gndim g)%nat -> (number i j < n)%nat) /\
    (forall i j i' j', (i < gndim g)%nat -> (j < gndim g)%nat -> (i' < gndim g)%nat -> (j' < gndim g)%nat ->
       (number i j = number i' j' <-> (i = i' /\ j = j') \/ (i = j' /\ j = i'))) /\
    (forall k, (k < n)%nat -> exists i j, (i < gndim g)%nat /\ (j < gndim g)%nat /\ number i j = k).
Proof. exact (@learned_tensor_viscosity_spec_lem). Qed.
Print Assumptions learned_tensor_viscosity_spec.

(** The hypotheses are met by a concrete case. *)
Example learned_scalar_viscosity_spec_ex : exists s, (0 < gndim p34g)%nat /\ length half2 = gndim p34g /\ periodic_vec p34g p34v /\ lists_distinct dedup /\ any_network p34g (square_net p34g) /\ tensor_at p34g half2 s (strain p34g p34v).
Proof. exact (@learned_scalar_viscosity_spec_ex_lem). Qed.

(** The hypotheses are met by a concrete case. *)
Example learned_viscosity_from_gradients_spec_ex : exists s, (0 < gndim p34g)%nat /\ length half2 = gndim p34g /\ periodic_vec p34g p34v /\ lists_distinct dedup /\ any_network p34g (square_net p34g) /\ tensor_at p34g half2 s (strain p34g p34v).
Proof. exact (@learned_viscosity_from_gradients_spec_ex_lem). Qed.

(** The hypotheses are met by a concrete case. *)
Example learned_tensor_viscosity_spec_ex : exists s, (0 < gndim p34g)%nat /\ length half2 = gndim p34g /\ periodic_vec p34g p34v /\ lists_distinct dedup /\ any_network p34g (square_net p34g) /\ tensor_at p34g half2 s (strain p34g p34v) /\
  length (dedup (map (fun ij => offs (snd ij) (1 # 2) (offs (fst ij) (1 # 2) half2)) [(0%nat, 0%nat); (0%nat, 1%nat); (1%nat, 0%nat); (1%nat, 1%nat)])) = 3%nat.
Proof. exact (@learned_tensor_viscosity_spec_ex_lem). Qed.
