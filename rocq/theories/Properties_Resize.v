(** Generated by tools/gen.py from ResizeProps.v: property theorems only. *)
From Verif Require Import Prelude NdArr Grids_model Spec SpecDiff FD_model FDProofs PRep WallFD ArrayUtils_model ArrayUtilsProps PressureSolve_model FastDiagProofs Resize_model.
From Verif Require Import ResizeProps.
Local Open Scope Z_scope.
Set Implicit Arguments.

(** C32. Every value of a downsampled velocity component is the mean of the fine values on the coarse face it belongs to (the upper face of the coarse cell in that direction; each coarse face consists of factor^(d-1) fine faces), for every rank, direction, factor >= 1 and shape that is a multiple of the factor. *)
Theorem downsample_component_spec : forall (u : arr R) (a f : nat) (coarse : list nat),
  (0 < f)%nat -> refines f (shp u) coarse -> (a < length coarse)%nat ->
  exists w, downsample_staggered_velocity_component u a (Z.of_nat f) = Ok w /\ shp w = coarse /\
    forall k, inb coarse k -> get w k = block_mean (face_block f (length coarse) a) (fun j => get u (fine_face f a k j)).
Proof. exact (@downsample_component_spec_lem). Qed.
Print Assumptions downsample_component_spec.

(** The hypotheses are met by a concrete case. *)
Example downsample_component_spec_ex : let u := mkarr [4%nat; 4%nat] (fun ix => IZR (4 * nth 0 ix 0 + nth 1 ix 0)) in
  refines 2 (shp u) [2%nat; 2%nat] /\ inb [2%nat; 2%nat] [1; 0] /\
  block_mean (face_block 2 2 0) (fun j => get u (fine_face 2 0 [1; 0] j)) = (25 / 2)%R.
Proof. exact (@downsample_component_spec_ex_lem). Qed.

(** C32. Downsampling commutes with divergence: for every staggered velocity (periodic, or bounded by Dirichlet walls of any value along each component's own axis; any condition across) on every grid and every integer factor that divides all its sizes, the downsampled velocity is a staggered velocity on the coarse grid with the same offsets and boundary conditions, and its divergence in every coarse cell is the mean of the fine divergence over the fine cells of that coarse cell. *)
Theorem downsample_divergence : forall f g g' v, (0 < f)%nat -> (0 < gndim g)%nat -> coarsens f g g' -> staggered g v ->
  exists v' d d', downsample_staggered_velocity g g' (map FVar v) = Ok (map FVar v') /\ staggered g' v' /\ map gbc v' = map gbc v /\
    divergence v = Ok d /\ divergence v' = Ok d' /\ shp (gdata d') = gshape g' /\
    forall k, inb (gshape g') k -> get (gdata d') k = block_mean (cell_block f (gndim g')) (fun j => get (gdata d) (fine_cell f k j)).
Proof. exact (@downsample_divergence_lem). Qed.
Print Assumptions downsample_divergence.

(** The hypotheses are met by a concrete case. *)
Example downsample_divergence_ex : (0 < gndim rzg)%nat /\ coarsens 2 rzg rzg' /\ staggered rzg rzv /\ exists d, divergence rzv = Ok d /\ get (gdata d) [2; 0] = 7%R.
Proof. exact (@downsample_divergence_ex_lem). Qed.

(** C32. Divergence-free staggered velocities stay divergence free under downsampling: for every grid, integer factor dividing its sizes and boundary condition as above, if the divergence vanishes in every fine cell then it vanishes in every coarse cell. *)
Theorem downsample_divergence_free : forall f g g' v d, (0 < f)%nat -> (0 < gndim g)%nat -> coarsens f g g' -> staggered g v ->
  divergence v = Ok d -> (forall ix, inb (gshape g) ix -> get (gdata d) ix = 0%R) ->
  exists v' d', downsample_staggered_velocity g g' (map FVar v) = Ok (map FVar v') /\ divergence v' = Ok d' /\ forall k, inb (gshape g') k -> get (gdata d') k = 0%R.
Proof. exact (@downsample_divergence_free_lem). Qed.
Print Assumptions downsample_divergence_free.

(** The hypotheses are met by a concrete case. *)
Example downsample_divergence_free_ex : coarsens 2 rfg rfg' /\ staggered rfg rfv /\ exists d, divergence rfv = Ok d /\ forall ix, inb (gshape rfg) ix -> get (gdata d) ix = 0%R.
Proof. exact (@downsample_divergence_free_ex_lem). Qed.

(** C32. Downsampling by f1 and then by f2 gives the same component as downsampling once by f1*f2, for all factors, directions, ranks and data. *)
Theorem downsample_compose : forall (u : arr R) (a f1 f2 : nat) (coarse : list nat), (0 < f1)%nat -> (0 < f2)%nat -> refines (f1 * f2) (shp u) coarse -> (a < length coarse)%nat ->
  exists w1 w2 w12, downsample_staggered_velocity_component u a (Z.of_nat f1) = Ok w1 /\ downsample_staggered_velocity_component w1 a (Z.of_nat f2) = Ok w2 /\
    downsample_staggered_velocity_component u a (Z.of_nat (f1 * f2)) = Ok w12 /\ shp w12 = coarse /\ aeq w2 w12.
Proof. exact (@downsample_compose_lem). Qed.
Print Assumptions downsample_compose.

(** The hypotheses are met by a concrete case. *)
Example downsample_compose_ex : let u := mkarr [12%nat; 6%nat] (fun ix => IZR (nth 0 ix 0 * nth 1 ix 0)) in refines (2 * 3) (shp u) [2%nat; 1%nat] /\ (1 < length [2%nat; 1%nat])%nat.
Proof. exact (@downsample_compose_ex_lem). Qed.

(** C32. Downsampling refuses (never returns data): components that live on another grid than the source grid; destination grids with another domain; step ratios that are not integers; components whose size across the direction is not a multiple of the factor. *)
Theorem downsample_refuses : forall g g' s0 d0 st st' v, gstep g = s0 :: st -> gstep g' = d0 :: st' -> (s0 <> 0)%R ->
  ((exists x h, In x v /\ grid_of x = Some h /\ h <> g) -> forall v', downsample_staggered_velocity g g' v <> Ok v') /\
  (gdomain g' <> gdomain g -> downsample_staggered_velocity g g' v = Err EAssert) /\
  ((forall n : Z, IZR n <> d0 / s0)%R -> downsample_staggered_velocity g g' v = Err EAssert) /\
  (forall u a f c, (0 < f)%nat -> (a < length (shp u))%nat -> (c < length (shp u))%nat -> c <> a -> (nth c (shp u) 0 mod f <> 0)%nat -> downsample_staggered_velocity_component u a (Z.of_nat f) = Err EValue).
Proof. exact (@downsample_refuses_lem). Qed.
Print Assumptions downsample_refuses.

(** The hypotheses are met by a concrete case. *)
Example downsample_refuses_ex : let u := mkarr [4%nat; 5%nat] (fun _ => 1%R) in
  gstep rzg = (1 / 2)%R :: [1%R] /\ (exists x h, In x (map FVar rfv) /\ grid_of x = Some h /\ h <> rzg) /\ (forall n : Z, IZR n <> (3 / 4) / (1 / 2))%R /\ (nth 1 (shp u) 0 mod 2 <> 0)%nat.
Proof. exact (@downsample_refuses_ex_lem). Qed.

(** C32. Sizes that are not a multiple of the factor along the direction itself are NOT refused: a 1-d velocity of 5 entries is downsampled by 2 to 2 entries without an error. *)
Theorem downsample_direction_unchecked_refuted :
  ~ (forall (u : arr R) (a f : nat), (0 < f)%nat -> (a < length (shp u))%nat -> (exists c, (c < length (shp u))%nat /\ (nth c (shp u) 0 mod f <> 0)%nat) -> exists e, downsample_staggered_velocity_component u a (Z.of_nat f) = Err e).
Proof. exact (@downsample_direction_unchecked_refuted_lem). Qed.
Print Assumptions downsample_direction_unchecked_refuted.
