(** * Specification vocabulary for linear operators (used in theorem statements only) *)
From Verif Require Import Prelude NdArr Grids_model Spec.
Set Implicit Arguments.
Local Open Scope Z_scope.

(** Matrix [M] applied along axis [a] of the field [u]: sum over j of M[ix_a, j] * u[.., j, ..]. *)
Definition matrix_along (M : arr R) (a : nat) (u : list Z -> R) (ix : list Z) : R :=
  rsum (nth 0 (shp M) 0%nat) (fun j => get M [nth a ix 0%Z; j] * u (upd a j ix))%R.
(** The separable operator with matrix number [a] acting along axis [a]: their sum. *)
Definition separable (ops : list (arr R)) (u : list Z -> R) (ix : list Z) : R :=
  nsum (length ops) (fun a => matrix_along (nth a ops (afull [] 0%R)) a u ix).
(** Sizes of square matrices. *)
Definition sizes (ops : list (arr R)) : list nat := map (fun M => nth 0 (shp M) 0%nat) ops.
Definition symmetric (M : arr R) : Prop :=
  exists n, shp M = [n; n] /\
    forall i j, 0 <= i < Z.of_nat n -> 0 <= j < Z.of_nat n -> get M [i; j] = get M [j; i].
(** A non-empty circulant matrix: the entry depends on (row - column) modulo the size only. *)
Definition circulant (M : arr R) : Prop :=
  exists n, (0 < n)%nat /\ shp M = [n; n] /\
    forall i j, 0 <= i < Z.of_nat n -> 0 <= j < Z.of_nat n -> get M [i; j] = get M [(i - j) mod Z.of_nat n; 0].
(** [x] is an eigenvalue of the separable operator. *)
Definition eigenvalue_of (ops : list (arr R)) (x : R) : Prop :=
  exists w : list Z -> R, (exists ix, inb (sizes ops) ix /\ w ix <> 0%R) /\
    forall ix, inb (sizes ops) ix -> separable ops w ix = (x * w ix)%R.

(** What np.linalg.eigh promises for the symmetric matrix [A]: (eigenvalues, eigenvectors), the latter an
    orthogonal matrix whose column k belongs to eigenvalue k. *)
Definition eigen_decomposition (A : arr R) (p : arr R * arr R) : Prop :=
  exists n, shp A = [n; n] /\ shp (fst p) = [n] /\ shp (snd p) = [n; n] /\
    (forall i k, 0 <= i < Z.of_nat n -> 0 <= k < Z.of_nat n ->
       rsum n (fun j => get A [i; j] * get (snd p) [j; k])%R = (get (snd p) [i; k] * get (fst p) [k])%R) /\
    (forall i k, 0 <= i < Z.of_nat n -> 0 <= k < Z.of_nat n ->
       rsum n (fun j => get (snd p) [j; i] * get (snd p) [j; k])%R = if i =? k then 1%R else 0%R) /\
    (forall i k, 0 <= i < Z.of_nat n -> 0 <= k < Z.of_nat n ->
       rsum n (fun j => get (snd p) [i; j] * get (snd p) [k; j])%R = if i =? k then 1%R else 0%R).
(** Sum of one eigenvalue per axis, and product of one eigenvector per axis. *)
Fixpoint joint_value (ps : list (arr R * arr R)) (kx : list Z) : R :=
  match ps, kx with p :: ps', k :: kx' => (get (fst p) [k] + joint_value ps' kx')%R | _, _ => 0%R end.
Fixpoint joint_vector (ps : list (arr R * arr R)) (kx ix : list Z) : R :=
  match ps, kx, ix with p :: ps', k :: kx', i :: ix' => (get (snd p) [i; k] * joint_vector ps' kx' ix')%R | _, _, _ => 1%R end.
(** Inner product of two fields. *)
Definition inner (s : list nat) (u w : list Z -> R) : R := asum s (fun ix => u ix * w ix)%R.

(** ** Unknowns of a Laplacian with walls.  On an edge-aligned axis the entry lying on a wall is not an
    unknown: the unknowns are [inner_size] entries starting at [inner_start]. *)
Definition inner_start (b : bcs) (o : list Q) (a : nat) : Z :=
  match edge_side b o a with Some (false, _) => 1 | _ => 0 end.
Definition inner_size (g : grid) (b : bcs) (o : list Q) (a : nat) : nat :=
  match edge_side b o a with Some _ => (nth a (gshape g) 0 - 1)%nat | None => nth a (gshape g) 0%nat end.
(** Second difference quotient along axis [a], with the boundary conditions [b]. *)
Definition second_difference (b : bcs) (u : garr) (a : nat) (ix : list Z) : R :=
  ((nbr b u a 1 ix - 2 * get (gdata u) ix + nbr b u a (-1) ix) / hstep (ggrid u) a ^ 2)%R.
(** Periodic, or cell-centred / edge-aligned between walls with zero boundary values. *)
Definition homogeneous_axis (b : bcs) (u : garr) (a : nat) : Prop :=
  periodic_axis b a \/
  (centred u a /\ exists t1 t2, lower_wall b a t1 0 /\ upper_wall b a t2 0 /\
     (t1 = Dirichlet \/ t1 = Neumann) /\ (t2 = Dirichlet \/ t2 = Neumann)) \/
  (edge_side b (goff u) a <> None /\ nth_error (bvals b) a = Some (Some 0%R, Some 0%R)).
(** The hypotheses on the axes: at least 3 cells, or 2 on an edge-aligned axis. *)
Definition enough_cells (g : grid) (b : bcs) (o : list Q) (a : nat) : Prop :=
  (2 <= nth a (gshape g) 0)%nat /\ (edge_side b o a = None -> (3 <= nth a (gshape g) 0)%nat).
