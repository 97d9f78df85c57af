(** Generated by tools/gen.py from LaplacianProps.v: property theorems only. *)
From Verif Require Import Prelude NdArr Grids_model Spec SpecLin LinAlg Boundaries_model BoundariesPeriodic WallBC FD_model PRep FDProofs FDProps WallBCProps ImposeProps WallFD WallFDProps Laplacian_model LaplacianProofs FastDiagProofs PressureProps.
From Verif Require Import LaplacianProps.
Local Open Scope Z_scope.
Set Implicit Arguments.

(** C20. The 1-d Laplacian matrices of a grid with homogeneous boundary conditions exist, are square and symmetric, and each acts along its axis as the second difference quotient with those boundary conditions (periodic, cell-centred Dirichlet/Neumann in any combination, edge-aligned Dirichlet). *)
Theorem laplacian_matrices_axis : forall u b,
  wf_garr u ->
  (forall a, (a < gndim (ggrid u))%nat -> homogeneous_axis b u a /\ enough_cells (ggrid u) b (goff u) a) ->
  exists Ls, laplacian_matrix_w_boundaries (ggrid u) (goff u) b = Ok Ls /\ length Ls = gndim (ggrid u) /\
    forall a, (a < gndim (ggrid u))%nat ->
      let L := nth a Ls (afull [] 0%R) in
      let m := inner_size (ggrid u) b (goff u) a in
      let st := inner_start b (goff u) a in
      shp L = [m; m] /\
      (forall i j, 0 <= i < Z.of_nat m -> 0 <= j < Z.of_nat m -> get L [i; j] = get L [j; i]) /\
      forall ix, inb (gshape (ggrid u)) ix -> st <= nth a ix 0 < st + Z.of_nat m ->
        rsum m (fun j => get L [(nth a ix 0 - st)%Z; j] * get (gdata u) (upd a (j + st)%Z ix))%R = second_difference b u a ix.
Proof. exact (@laplacian_matrices_axis_lem). Qed.
Print Assumptions laplacian_matrices_axis.

(** C20. On every cell that is not on a wall, the sum over the axes of these matrices applied to the data of a variable is exactly the value of the finite-difference laplacian of that variable. *)
Theorem laplacian_matrices_are_fd_laplacian : forall u,
  let g := ggrid (garray u) in let o := goff (garray u) in let b := gbc u in
  wf_garr (garray u) ->
  (forall a, (a < gndim g)%nat -> homogeneous_axis b (garray u) a /\ enough_cells g b o a) ->
  exists Ls w, laplacian_matrix_w_boundaries g o b = Ok Ls /\ laplacian u = Ok w /\
    forall ix, inb (gshape g) ix ->
      (forall a, (a < gndim g)%nat -> inner_start b o a <= nth a ix 0 < inner_start b o a + Z.of_nat (inner_size g b o a)) ->
      nsum (gndim g) (fun a => rsum (inner_size g b o a)
         (fun j => get (nth a Ls (afull [] 0)) [(nth a ix 0 - inner_start b o a)%Z; j]
                   * get (gdata (garray u)) (upd a (j + inner_start b o a)%Z ix)))%R
      = get (gdata w) ix.
Proof. exact (@laplacian_matrices_are_fd_laplacian_lem). Qed.
Print Assumptions laplacian_matrices_are_fd_laplacian.

(** The hypotheses are met by a concrete case. *)
Example laplacian_matrices_axis_ex : wf_garr lpu /\
  (forall a, (a < gndim (ggrid lpu))%nat -> homogeneous_axis lpb lpu a /\ enough_cells (ggrid lpu) lpb (goff lpu) a).
Proof. exact (@laplacian_matrices_axis_ex_lem). Qed.

(** The hypotheses are met by a concrete case. *)
Example laplacian_matrices_are_fd_laplacian_ex :
  let u := mkgv lpe lpbe in
  wf_garr (garray u) /\
  (forall a, (a < gndim lpg)%nat -> homogeneous_axis lpbe lpe a /\ enough_cells lpg lpbe (goff lpe) a) /\
  inner_start lpbe (goff lpe) 0 = 0 /\ inner_size lpg lpbe (goff lpe) 0 = 3%nat.
Proof. exact (@laplacian_matrices_are_fd_laplacian_ex_lem). Qed.

(** C20. With only 2 cells on a periodic axis the claim fails: the matrix entry coupling the two cells is 1/h^2, although each is both the left and the right neighbour of the other, so on the data (0, 1) the matrix gives 1/h^2 where the finite-difference laplacian gives 2/h^2. *)
Theorem laplacian_matrix_size_two_refuted : forall h : R, h <> 0%R ->
  let g := mkgrid [2%nat] [h] [(0%R, (2 * h)%R)] in
  let b := constant_bc [(Periodic, Periodic)] [(None, None)] in
  let u := mkgv (mkga (mkarr [2%nat] (fun ix => IZR (nth 0 ix 0))) [(1 # 2)%Q] g) b in
  exists L w, laplacian_matrix_w_boundaries g [(1 # 2)%Q] b = Ok [L] /\ laplacian u = Ok w /\
    rsum 2 (fun j => get L [0%Z; j] * get (gdata (garray u)) [j])%R = (1 / h ^ 2)%R /\
    get (gdata w) [0] = (2 / h ^ 2)%R.
Proof. exact (@laplacian_matrix_size_two_refuted_lem). Qed.
Print Assumptions laplacian_matrix_size_two_refuted.

(** C20. With 2 cells between walls the claim fails too: both off-diagonal entries are overwritten by 0, so the two cells are decoupled although they are neighbours. *)
Theorem laplacian_matrix_two_cells_decoupled_refuted : forall (h : R) t1 t2, h <> 0%R ->
  (t1 = Dirichlet \/ t1 = Neumann) -> (t2 = Dirichlet \/ t2 = Neumann) ->
  let g := mkgrid [2%nat] [h] [(0%R, (2 * h)%R)] in
  let b := constant_bc [(t1, t2)] [(Some 0%R, Some 0%R)] in
  let u := mkgv (mkga (mkarr [2%nat] (fun ix => IZR (nth 0 ix 0))) [(1 # 2)%Q] g) b in
  exists L w, laplacian_matrix_w_boundaries g [(1 # 2)%Q] b = Ok [L] /\ laplacian u = Ok w /\
    get L [0; 1] = 0%R /\ get L [1; 0] = 0%R /\
    rsum 2 (fun j => get L [0%Z; j] * get (gdata (garray u)) [j])%R = 0%R /\
    get (gdata w) [0] = (1 / h ^ 2)%R.
Proof. exact (@laplacian_matrix_two_cells_decoupled_refuted_lem). Qed.
Print Assumptions laplacian_matrix_two_cells_decoupled_refuted.

(** C20. What is refused: an axis with fewer than 2 cells raises an index error, and edge-aligned data with a Neumann wall raises not-implemented. *)
Theorem laplacian_matrix_errors : forall g o b,
  length (gstep g) = gndim g ->
  ((exists a, (a < gndim g)%nat /\ (nth a (gshape g) 0 < 2)%nat) ->
     laplacian_matrix_w_boundaries g o b = Err EIndex) /\
  ((forall a, (a < gndim g)%nat -> (2 <= nth a (gshape g) 0)%nat) ->
   (exists a t1 t2 z, (a < gndim g)%nat /\ nth_error (btypes b) a = Some (t1, t2) /\ (t1 = Neumann \/ t2 = Neumann) /\ (nth a o 0 == inject_Z z)%Q) ->
     laplacian_matrix_w_boundaries g o b = Err ENotImpl).
Proof. exact (@laplacian_matrix_errors_lem). Qed.
Print Assumptions laplacian_matrix_errors.

(** The hypotheses are met by a concrete case. *)
Example laplacian_matrix_errors_ex :
  let g1 := mkgrid [1%nat] [1%R] [(0%R, 1%R)] in let g2 := mkgrid [4%nat] [1%R] [(0%R, 4%R)] in
  let b := constant_bc [(Neumann, Dirichlet)] [(Some 0%R, Some 0%R)] in
  (exists a, (a < gndim g1)%nat /\ (nth a (gshape g1) 0 < 2)%nat) /\
  (forall a, (a < gndim g2)%nat -> (2 <= nth a (gshape g2) 0)%nat) /\
  (exists a t1 t2 z, (a < gndim g2)%nat /\ nth_error (btypes b) a = Some (t1, t2) /\ (t1 = Neumann \/ t2 = Neumann) /\ (nth a [1%Q] 0 == inject_Z z)%Q).
Proof. exact (@laplacian_matrix_errors_ex_lem). Qed.
