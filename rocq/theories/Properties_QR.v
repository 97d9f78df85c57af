(** Generated by tools/gen.py from QRProps.v: property theorems only. *)
From Verif Require Import Prelude NdArr Grids_model Spec FDProofs FastDiagProofs ArrayUtils_model ArrayUtilsProps.
From Coq Require Import Psatz.
From Verif Require Import QRProps.
Local Open Scope Z_scope.
Set Implicit Arguments.

(** C43. For every m x n matrix with linearly independent columns (n >= 1), gram_schmidt_qr returns an m x n matrix Q with orthonormal columns and an upper triangular n x n matrix R with positive diagonal, and the product QR is exactly the given matrix. *)
Theorem gram_schmidt_qr_correct : forall m n A, (0 < n)%nat -> shp A = [m; n] -> full_column_rank m n A ->
  exists q r, gram_schmidt_qr A = Ok (q, r) /\ qr_decomposition m n A q r.
Proof. exact (@gram_schmidt_qr_correct_lem). Qed.
Print Assumptions gram_schmidt_qr_correct.

(** The hypotheses are met by a concrete case. *)
Example gram_schmidt_qr_correct_ex : let A := mkarr [3%nat; 2%nat] (fun ix => match ix with [0; 0] => 3 | [1; 0] => 4 | [0; 1] => 1 | [2; 1] => 2 | _ => 0 end)%R in
  shp A = [3%nat; 2%nat] /\ full_column_rank 3 2 A.
Proof. exact (@gram_schmidt_qr_correct_ex_lem). Qed.

(** C43. The decomposition returned is the only one: any other pair (Q', R') with orthonormal columns, upper triangular R' with positive diagonal and Q'R' equal to the matrix has the same entries. *)
Theorem gram_schmidt_qr_unique : forall m n A q r q' r', (0 < n)%nat -> shp A = [m; n] -> full_column_rank m n A ->
  gram_schmidt_qr A = Ok (q, r) -> qr_decomposition m n A q' r' -> aeq q q' /\ aeq r r'.
Proof. exact (@gram_schmidt_qr_unique_lem). Qed.
Print Assumptions gram_schmidt_qr_unique.

(** The hypotheses are met by a concrete case. *)
Example gram_schmidt_qr_unique_ex : let A := mkarr [2%nat; 1%nat] (fun ix => match ix with [0; 0] => 3 | _ => 4 end)%R in
  full_column_rank 2 1 A /\ qr_decomposition 2 1 A (mkarr [2%nat; 1%nat] (fun ix => match ix with [0; 0] => 3 / 5 | _ => 4 / 5 end)%R) (mkarr [1%nat; 1%nat] (fun _ => 5%R)).
Proof. exact (@gram_schmidt_qr_unique_ex_lem). Qed.
