(** * Model of jax_cfd/base/array_utils.py:168-290 (1-d Laplacian matrices) *)
From Verif Require Import Prelude NdArr Grids_model Boundaries_model.
Set Implicit Arguments.
Local Open Scope Z_scope.

(** array_utils.py:168-173 [laplacian_matrix]: [column[1]] raises IndexError below size 2;
    [scipy.linalg.circulant(c)[i, j] = c[(i - j) mod n]]. *)
Definition lap_column (n : nat) (h : R) (j : Z) : R :=
  if j =? 0 then (-2 / h ^ 2)%R
  else if (j =? 1) || (j =? Z.of_nat n - 1) then (1 / h ^ 2)%R else 0%R.
Definition laplacian_matrix (n : nat) (h : R) : result (arr R) :=
  if (n <? 2)%nat then Err EIndex
  else Ok (mkarr [n; n] (fun ix => lap_column n h ((nth 0 ix 0 - nth 1 ix 0) mod Z.of_nat n))).

(** [M[i, j] = x] *)
Definition mset (i j : Z) (x : R) (M : arr R) : arr R :=
  mkarr (shp M) (fun ix => if (nth 0 ix 0 =? i) && (nth 1 ix 0 =? j) then x else get M ix).
(** array_utils.py:204-213 and 234-243, [_laplacian_boundary_dirichlet_cell_centered] and
    [_laplacian_boundary_neumann_cell_centered]: [s] is -1 (Dirichlet) or 1 (Neumann). *)
Definition lap_boundary (s : R) (h : R) (upper : bool) (M : arr R) : arr R :=
  let e := Z.of_nat (nth 0 (shp M) 0%nat) - 1 in
  let M := if upper then mset e e (get M [e; e]%Z + s * (1 / h ^ 2))%R M
           else mset 0 0 (get M [0; 0]%Z + s * (1 / h ^ 2))%R M in
  mset e 0 0%R (mset 0 e 0%R M).
(** [M[:-1, :-1]] *)
Definition mcut (M : arr R) : arr R := mkarr (map (fun n => (n - 1)%nat) (shp M)) (get M).

(** array_utils.py:270-289, one iteration of the loop over the axes. *)
Definition lap_axis (h : R) (o : Q) (t : bctype * bctype) (M : arr R) : result (arr R) :=
  let adapt (upper : bool) (ty : bctype) (M : arr R) :=
    if isNeu ty then lap_boundary 1 h upper M
    else if isDir ty then lap_boundary (-1) h upper M else M in
  let M := if isclose o (1 # 2) then adapt true (snd t) (adapt false (fst t) M) else M in
  if isclose (mod1 o) 0 then
    if isDir (fst t) && isDir (snd t) then Ok (mcut M)
    else if isNeu (fst t) || isNeu (snd t) then Err ENotImpl
    else Ok M
  else Ok M.

(** array_utils.py:246-290 [laplacian_matrix_w_boundaries]; every [bcs] of the model stands for
    ConstantBoundaryConditions, so lines 266-268 never raise. *)
Definition laplacian_matrix_w_boundaries (g : grid) (o : list Q) (b : bcs) : result (list (arr R)) :=
  let* Ls := mapM (fun nh => laplacian_matrix (fst nh) (snd nh)) (combine (gshape g) (gstep g)) in
  mapM (fun ax => lap_axis (nth ax (gstep g) 0%R) (nth ax o 0%Q) (btype b ax) (nth ax Ls (afull [] 0%R)))
       (seq 0 (gndim g)).
