(** Generated by tools/gen.py from NetworksProps.v: property theorems only. *)
From Verif Require Import Prelude NdArr Grids_model Spec SpecNS Boundaries_model BoundariesPeriodic FD_model Interp_model Advection_model ArrayUtils_model Equations_model PRep FDProofs FDProps InterpProps ArrayUtilsProps PressureProps PressureSolveProps EquationsProps Networks_model.
From Verif Require Import NetworksProps.
Local Open Scope Z_scope.
Set Implicit Arguments.

(** C62. Stacking fields into channels and splitting them again loses nothing: for any fields filling the grid, channel k of stack_aligned_field is field k, and split_to_aligned_field of the stack returns the same values at the cell faces with periodic boundary conditions. *)
Theorem stack_split_channels : forall g v, wfg g -> (0 < gndim g)%nat -> length v = gndim g -> (forall u, In u v -> shp (gdata (garray u)) = gshape g) ->
  exists a l, stack_aligned_field v = Ok a /\ shp a = gshape g ++ [gndim g] /\
    (forall k ix, (k < gndim g)%nat -> inb (gshape g) ix -> get a (ix ++ [Z.of_nat k]) = get (gdata (garray (nth k v dgv))) ix) /\
    split_to_aligned_field g None a = Ok l /\ length l = gndim g /\
    forall k, (k < gndim g)%nat -> gbc (nth k l dgv) = periodic_bc (gndim g) /\
      is_field (garray (nth k l dgv)) g (nth k (cell_faces g) []) (get (gdata (garray (nth k v dgv)))).
Proof. exact (@stack_split_channels_lem). Qed.
Print Assumptions stack_split_channels.

(** The hypotheses are met by a concrete case. *)
Example stack_split_channels_ex : wfg p34g /\ (0 < gndim p34g)%nat /\ length p34v = gndim p34g /\ (forall u, In u p34v -> shp (gdata (garray u)) = gshape p34g).
Proof. exact (@stack_split_channels_ex_lem). Qed.

(** C62. flux_corrector_network, for every network whose output has ndim^2 channels on the grid: it returns one field per velocity component, at that component's cell face and periodic, equal to minus the divergence of that component's ndim predicted fluxes (channels i*ndim .. i*ndim + ndim - 1), and the total of every component of the correction is zero: a flux correction cannot create momentum, whatever the network has learned. *)
Theorem flux_corrector_conserves : forall g tower pre v x y, wfg g -> (0 < gndim g)%nat ->
  pre v = Ok x -> tower (gndim g * gndim g)%nat x = Ok y -> shp y = gshape g ++ [(gndim g * gndim g)%nat] ->
  exists l, flux_corrector_network g tower pre v = Ok l /\ length l = gndim g /\
    forall i u, nth_error l i = Some u -> gbc u = periodic_bc (gndim g) /\ total (gdata (garray u)) = 0%R /\
      is_field (garray u) g (nth i (cell_faces g) []) (fun ix => - nsum (gndim g) (fun a =>
        (get y (ix ++ [Z.of_nat (i * gndim g + a)]) - get y (wrap (gshape g) (prev a ix) ++ [Z.of_nat (i * gndim g + a)])) / hstep g a))%R.
Proof. exact (@flux_corrector_conserves_lem). Qed.
Print Assumptions flux_corrector_conserves.

(** The hypotheses are met by a concrete case. *)
Example flux_corrector_conserves_ex : exists x y, wfg p34g /\ (0 < gndim p34g)%nat /\ stack_aligned_field p34v = Ok x /\
  toy_tower p34g (gndim p34g * gndim p34g) x = Ok y /\ shp y = gshape p34g ++ [(gndim p34g * gndim p34g)%nat].
Proof. exact (@flux_corrector_conserves_ex_lem). Qed.

(** C62. velocity_corrector_network, for every network: on fields filling the grid it feeds the network one channel per component, in order, and channel k of the network's output becomes component k of the correction, at the k-th cell face and periodic. *)
Theorem velocity_corrector_channels : forall g tower v y, (0 < gndim g)%nat -> v <> [] -> (forall u, In u v -> shp (gdata (garray u)) = gshape g) ->
  (forall x, shp x = gshape g ++ [length v] ->
     (forall k ix, (k < length v)%nat -> inb (gshape g) ix -> get x (ix ++ [Z.of_nat k]) = get (gdata (garray (nth k v dgv))) ix) ->
     tower (gndim g) x = Ok y) -> shp y = gshape g ++ [gndim g] ->
  exists l, velocity_corrector_network g tower v = Ok l /\ length l = gndim g /\
    forall k u, nth_error l k = Some u -> gbc u = periodic_bc (gndim g) /\
      is_field (garray u) g (nth k (cell_faces g) []) (fun ix => get y (ix ++ [Z.of_nat k])).
Proof. exact (@velocity_corrector_channels_lem). Qed.
Print Assumptions velocity_corrector_channels.

(** The hypotheses are met by a concrete case. *)
Example velocity_corrector_channels_ex : exists (tower : nat -> arr R -> result (arr R)) y, (0 < gndim p34g)%nat /\ p34v <> [] /\ (forall u, In u p34v -> shp (gdata (garray u)) = gshape p34g) /\
  (forall x, shp x = gshape p34g ++ [length p34v] ->
     (forall k ix, (k < length p34v)%nat -> inb (gshape p34g) ix -> get x (ix ++ [Z.of_nat k]) = get (gdata (garray (nth k p34v dgv))) ix) ->
     tower (gndim p34g) x = Ok y) /\ shp y = gshape p34g ++ [gndim p34g].
Proof. exact (@velocity_corrector_channels_ex_lem). Qed.
