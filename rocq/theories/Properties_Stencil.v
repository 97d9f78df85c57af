(** Generated by tools/gen.py from StencilProps.v: property theorems only. *)
From Verif Require Import Prelude NdArr ArrayUtils_model ArrayUtilsProps Tiling_model SpecTile TilingProofs TilingProps Stencil_model SpecStencil StencilProofs.
From Verif Require Import StencilProps.
Local Open Scope R_scope.
Set Implicit Arguments.

(** C46. The cell average used for finite volumes is the true average: for every antiderivative F of x^m, it is the difference of F at the ends of the cell divided by its length. *)
Theorem cell_average_is_integral : forall (h x : R) (m : nat) (F : R -> R), h <> 0 -> (forall y, derivable_pt_lim F y (y ^ m)) -> average1 h x m = (F (x + h / 2) - F (x - h / 2)) / h.
Proof. exact (@cell_average_is_integral_lem). Qed.
Print Assumptions cell_average_is_integral.

(** The hypotheses are met by a concrete case. *)
Example cell_average_is_integral_ex : average1 2 3 1 = ((fun y => / 2 * y ^ 2) (3 + 2 / 2) - (fun y => / 2 * y ^ 2) (3 - 2 / 2)) / 2.
Proof. exact (@cell_average_is_integral_ex_lem). Qed.

(** C46. Exponents: _exponents_up_to_degree enumerates exactly the exponent tuples of the given length whose sum is at most the degree. *)
Theorem exponents_complete : forall deg n e, In e (exponents_up_to_degree deg n) <-> length e = n /\ (fold_right Nat.add 0 e <= deg)%nat.
Proof. exact (@exponents_complete_lem). Qed.
Print Assumptions exponents_complete.

(** The hypotheses are met by a concrete case. *)
Example exponents_complete_ex : exponents_up_to_degree 2 2 = [[0; 0]; [0; 1]; [0; 2]; [1; 0]; [1; 1]; [2; 0]]%nat.
Proof. exact (@exponents_complete_ex_lem). Qed.

(** C46. polynomial_accuracy_constraints is sound and complete: a coefficient vector solves the returned linear system if and only if it differentiates every polynomial of total degree at most accuracy_order + sum(derivative_orders) - 1 exactly at the origin, from point values (finite differences) or cell averages (finite volumes), in any number of dimensions and for any stencils. *)
Theorem constraints_mean_exactness : forall stencils method orders acc h A b c, polynomial_accuracy_constraints stencils method orders acc (Some h) = Ok (A, b) -> length c = fold_right Nat.mul 1%nat (map (@length R) stencils) ->
  (solves A b c <-> exact_up_to (Z.to_nat (acc + Z.of_nat (fold_right Nat.add 0%nat orders) - 1)) (cell_size method h) stencils orders c).
Proof. exact (@constraints_mean_exactness_lem). Qed.
Print Assumptions constraints_mean_exactness.

(** C46. If any coefficient vector has the requested exactness, polynomial_accuracy_constraints succeeds: "conflicting constraints" is reported only when no such vector exists. *)
Theorem constraints_found_if_possible : forall stencils method orders acc h c, stencils <> [] -> length stencils = length orders -> (1 <= acc)%Z -> h <> 0 -> method <> OtherMethod ->
  length c = fold_right Nat.mul 1%nat (map (@length R) stencils) -> exact_up_to (Z.to_nat (acc + Z.of_nat (fold_right Nat.add 0%nat orders) - 1)) (cell_size method h) stencils orders c ->
  exists A b, polynomial_accuracy_constraints stencils method orders acc (Some h) = Ok (A, b).
Proof. exact (@constraints_found_if_possible_lem). Qed.
Print Assumptions constraints_found_if_possible.

(** C46. The default coefficients of polynomial_accuracy_coefficients (products of one-dimensional stencils cut from the middle) differentiate every polynomial up to the requested total degree exactly, in any number of dimensions, whenever every stencil has at least derivative order + accuracy order cells; this includes polynomials whose degree in one variable exceeds what the one-dimensional stencil handles. *)
Theorem default_coefficients_exact : forall solve stencils method orders accuracy h grid acc, correct_solver solve ->
  polynomial_accuracy_coefficients solve stencils method orders accuracy (Some h) = Ok grid -> (1 <= acc)%Z -> stencils <> [] ->
  (forall i, (i < length stencils)%nat -> match accuracy with Some a => (acc <= a /\ Z.of_nat (nth i orders 0%nat) + a <= Z.of_nat (length (nth i stencils [])))%Z | None => (Z.of_nat (nth i orders 0%nat) + acc <= Z.of_nat (length (nth i stencils [])))%Z end) ->
  shp grid = map (@length R) stencils /\ exact_up_to (Z.to_nat (acc + Z.of_nat (fold_right Nat.add 0%nat orders) - 1)) (cell_size method h) stencils orders (ravel grid).
Proof. exact (@default_coefficients_exact_lem). Qed.
Print Assumptions default_coefficients_exact.

(** The hypotheses are met by a concrete case. *)
Example constraints_mean_exactness_ex : exists A b, polynomial_accuracy_constraints [[- / 2; / 2]] FiniteDifference [1%nat] 1 (Some 1) = Ok (A, b) /\ solves A b [-1; 1] /\ ~ solves A b [1; 1].
Proof. exact (@constraints_mean_exactness_ex_lem). Qed.

(** The hypotheses are met by a concrete case. *)
Example constraints_found_if_possible_ex : exists A b, polynomial_accuracy_constraints [[-1; 0; 1]] FiniteDifference [1%nat] 2 (Some 1) = Ok (A, b).
Proof. exact (@constraints_found_if_possible_ex_lem). Qed.

(** The hypotheses are met by a concrete case. *)
Example default_coefficients_exact_ex : exists g, polynomial_accuracy_coefficients (try_solver [[- / 2; 0; / 2]]) [[-1; 0; 1]] FiniteDifference [1%nat] (Some 1%Z) (Some 1) = Ok g /\ exact_up_to 1 None [[-1; 0; 1]] [1%nat] (ravel g).
Proof. exact (@default_coefficients_exact_ex_lem). Qed.
