(** * Model of the learned-derivative layers: jax_cfd/ml/layers_util.py and jax_cfd/ml/layers.py *)
From Verif Require Import Prelude NdArr ArrayUtils_model Tiling_model.
Set Implicit Arguments.
Local Open Scope Z_scope.

(** layers_util.py:18-21 [Method]; [OtherMethod] stands for any other value. *)
Inductive fd_method := FiniteDifference | FiniteVolume | OtherMethod.

(** layers_util.py:24-26 [_kronecker_product]: [functools.reduce(np.kron, arrays)] of vectors *)
Definition kron2 (a b : list R) : list R := flat_map (fun x => map (Rmult x) b) a.
Definition kronecker_product (arrays : list (list R)) : result (list R) :=
  match arrays with [] => Err EType | a :: l => Ok (fold_left kron2 l a) end.

(** layers_util.py:29-53 [_exponents_up_to_degree] *)
Fixpoint exponents_up_to_degree (degree num_dimensions : nat) : list (list nat) :=
  match num_dimensions with
  | O => [[]]
  | S k => flat_map (fun d => map (cons d) (exponents_up_to_degree (degree - d) k)) (seq 0 (S degree))
  end.

(** One factor of the left-hand side (layers_util.py:118-132): exact point values or cell averages of x^exponent. *)
Definition lhs_term (method : fd_method) (grid_step : option R) (exponent : nat) (stencil : list R) : result (list R) :=
  match method with
  | FiniteVolume =>
      match grid_step with
      | None => Err EValue
      | Some h => if Req_EM_T h 0 then Err EZeroDiv
                  else Ok (map (fun x => (1 / h * ((x + h / 2) ^ (exponent + 1) - (x - h / 2) ^ (exponent + 1)) / INR (exponent + 1))%R) stencil)
      end
  | FiniteDifference => Ok (map (fun x => x ^ exponent)%R stencil)
  | OtherMethod => Err EValue
  end.
(** layers_util.py:134-139: m! if the exponent is the order, else 0 *)
Definition rhs_term (exponent order : nat) : R := if (exponent =? order)%nat then INR (fact exponent) else 0%R.
Definition rlist_dec : forall a b : list R, {a = b} + {a <> b} := list_eq_dec Req_EM_T.
(** The dictionary [all_constraints]: keys in insertion order. *)
Definition constraints := list (list R * R).
Fixpoint dict_get (d : constraints) (k : list R) : option R :=
  match d with [] => None | (k', v) :: d' => if rlist_dec k k' then Some v else dict_get d' k end.
(** layers_util.py:144-146: same left-hand side with another right-hand side is a conflict. *)
Definition dict_add (d : constraints) (lhs : list R) (rhs : R) : result constraints :=
  match dict_get d lhs with
  | Some v => if Req_EM_T v rhs then Ok d else Err EValue
  | None => Ok (d ++ [(lhs, rhs)])
  end.
(** Tuple comparison, and [sorted] (stable insertion; keys are distinct, so only they are compared). *)
Fixpoint lex_lt (a b : list R) : bool :=
  match a, b with
  | [], [] => false
  | [], _ :: _ => true
  | _ :: _, [] => false
  | x :: a', y :: b' => if Rlt_dec x y then true else if Req_EM_T x y then lex_lt a' b' else false
  end.
Fixpoint insert_item (kv : list R * R) (l : constraints) : constraints :=
  match l with [] => [kv] | kv' :: l' => if lex_lt (fst kv) (fst kv') then kv :: l else kv' :: insert_item kv l' end.
Definition sort_items (l : constraints) : constraints := fold_right insert_item [] l.

(** layers_util.py:113-142: the row of one monomial *)
Definition monomial_row (method : fd_method) (grid_step : option R) (stencils : list (list R)) (orders exponents : list nat) : result (list R * R) :=
  let* lhs_terms := mapM (fun es => lhs_term method grid_step (fst es) (snd es)) (combine exponents stencils) in
  let* lhs := kronecker_product lhs_terms in
  Ok (lhs, fold_right Rmult 1%R (map (fun ed => rhs_term (fst ed) (snd ed)) (combine exponents orders))).
(** layers_util.py:56-151 [polynomial_accuracy_constraints] *)
Definition polynomial_accuracy_constraints (stencils : list (list R)) (method : fd_method) (derivative_orders : list nat) (accuracy_order : Z) (grid_step : option R) : result (list (list R) * list R) :=
  if negb (length stencils =? length derivative_orders)%nat then Err EValue
  else if accuracy_order <? 1 then Err EValue
  else let max_degree := Z.to_nat (accuracy_order + Z.of_nat (fold_right Nat.add 0%nat derivative_orders) - 1) in
       let* all_constraints := foldM (fun d exponents =>
            let* row := monomial_row method grid_step stencils derivative_orders exponents in
            dict_add d (fst row) (snd row)) [] (exponents_up_to_degree max_degree (length stencils)) in
       let items := sort_items all_constraints in
       Ok (map fst items, map snd items).

(** Python's [l\[start:stop\]] *)
Definition py_slice_bound (n : nat) (z : Z) : nat :=
  Z.to_nat (Z.max 0 (Z.min (Z.of_nat n) (if z <? 0 then z + Z.of_nat n else z))).
Definition py_slice {A} (l : list A) (start stop : Z) : list A :=
  let a := py_slice_bound (length l) start in let b := py_slice_bound (length l) stop in firstn (b - a) (skipn a l).

Section Oracles.
(** [np.linalg.solve] and the third result of [np.linalg.svd] are parameters. *)
Variable solve : list (list R) -> list R -> result (list R).
Variable svd_v : list (list R) -> list (list R).

(** layers_util.py:154-178 [_high_order_coefficients_1d] *)
Definition high_order_coefficients_1d (stencil : list R) (method : fd_method) (derivative_order : nat) (grid_step : option R) : result (list R) :=
  let accuracy_order := Z.of_nat (length stencil) - Z.of_nat derivative_order in
  let* Ab := polynomial_accuracy_constraints [stencil] method [derivative_order] accuracy_order grid_step in
  solve (fst Ab) (snd Ab).
(** layers_util.py:212-219: start and stop of the slice used on one axis *)
Definition used_slice (size derivative_order : nat) (accuracy_order : option Z) : Z * Z :=
  let excess := match accuracy_order with None => 0 | Some a => Z.of_nat size - Z.of_nat derivative_order - a end in
  (excess / 2, Z.of_nat size - excess / 2).
(** layers_util.py:181-229 [polynomial_accuracy_coefficients].  Simplification: as many orders as stencils. *)
Definition polynomial_accuracy_coefficients (stencils : list (list R)) (method : fd_method) (derivative_orders : list nat) (accuracy_order : option Z) (grid_step : option R) : result (arr R) :=
  if negb (length stencils =? length derivative_orders)%nat then Err EShape
  else
  let* axes := mapM (fun so => let '(stencil, order) := so in
      let '(start, stop) := used_slice (length stencil) order accuracy_order in
      let used := py_slice stencil start stop in
      let* axis_coefficients := high_order_coefficients_1d used method order grid_step in
      Ok (py_slice_bound (length stencil) start, length used, axis_coefficients)) (combine stencils derivative_orders) in
  let starts := map (fun a => Z.of_nat (fst (fst a))) axes in
  let sizes := map (fun a => snd (fst a)) axes in
  let* values := kronecker_product (map snd axes) in
  if negb (length values =? asize sizes)%nat then Err EValue
  else Ok (mkarr (map (@length R) stencils) (fun ix =>
         let rel := add_ix ix (map Z.opp starts) in
         if forallb (fun rs => (0 <=? fst rs) && (fst rs <? Z.of_nat (snd rs))) (combine rel sizes)
         then nth (Z.to_nat (tflat sizes rel)) values 0%R else 0%R)).

(** [a.ravel()] *)
Definition ravel (a : arr R) : list R := map (fun k => get a (tunflat (shp a) (Z.of_nat k))) (seq 0 (asize (shp a))).
Definition dot (a b : list R) : R := fold_right Rplus 0%R (map (fun xy => (fst xy * snd xy)%R) (combine a b)).
(** [np.linalg.norm] of a vector *)
Definition norm2 (v : list R) : R := sqrt (fold_right Rplus 0%R (map (fun x => (x * x)%R) v)).

Record poly_constraint := mkPC { pc_bias : list R; pc_nullspace : list (list R); pc_subspace_size : Z }.
(** layers.py:451-525 [PolynomialConstraint.__init__]; [steps] is a non-empty tuple whose entries must be equal. *)
Definition make_constraint (stencils : list (list R)) (derivative_orders : list nat) (method : fd_method) (steps : list R) (accuracy_order bias_accuracy_order : Z) (bias : option (list R)) : result poly_constraint :=
  match steps with
  | [] => Err EValue
  | grid_step :: rest =>
      if existsb (fun s => if Req_EM_T s grid_step then false else true) rest then Err EValue
      else
      let* Ab := polynomial_accuracy_constraints stencils method derivative_orders accuracy_order (Some grid_step) in
      let '(constraint_matrix, rhs) := Ab in
      let* bias := match bias with
                   | Some b => Ok b
                   | None => let* bias_grid := polynomial_accuracy_coefficients stencils method derivative_orders (Some bias_accuracy_order) (Some grid_step) in Ok (ravel bias_grid)
                   end in
      let ncols := length (hd [] constraint_matrix) in
      if negb (length bias =? ncols)%nat then Err EValue
      else if Rlt_dec (1 / 100000000) (norm2 (map (fun rb => (dot (fst rb) bias - snd rb)%R) (combine constraint_matrix rhs))) then Err EValue
      else
      let v := svd_v constraint_matrix in
      let nullspace_size := Z.of_nat ncols - Z.of_nat (length constraint_matrix) in
      if nullspace_size =? 0 then Err EValue
      else let scale := fold_right Rmult 1%R (map (fun k => (grid_step ^ k)%R) derivative_orders) in
           Ok (mkPC bias (map (map (fun x => (x / scale)%R)) (py_slice v (- nullspace_size) (Z.of_nat (length v)))) nullspace_size)
  end.
(** layers.py:527-544 [PolynomialConstraint.__call__]: [bias + tensordot(inputs, nullspace, axes=\[-1, 0\])] *)
Definition constraint_call (pc : poly_constraint) (inputs : arr R) : result (arr R) :=
  if (ndim inputs =? 0)%nat then Err EValue
  else if negb (nth (ndim inputs - 1) (shp inputs) 0 =? length (pc_nullspace pc))%nat then Err EType
  else Ok (mkarr (removelast (shp inputs) ++ [length (pc_bias pc)]) (fun ix =>
         (nth (Z.to_nat (last ix 0%Z)) (pc_bias pc) 0 +
          rsum (length (pc_nullspace pc)) (fun j => get inputs (removelast ix ++ [j]) * nth (Z.to_nat (last ix 0%Z)) (nth (Z.to_nat j) (pc_nullspace pc) []) 0))%R)).

(** layers_util.py:232-240 [get_roll_and_shift]; offsets are rationals. *)
Definition get_roll_and_shift (input_offset target_offset : list Q) : list Z * list Q :=
  let delta := map (fun ti => (fst ti - snd ti)%Q) (combine target_offset input_offset) in
  let roll := map (fun d => - Qround.Qfloor d) delta in
  (roll, map (fun dr => (fst dr + inject_Z (snd dr))%Q) (combine delta roll)).
(** layers_util.py:243-272 [get_stencils] *)
Definition get_stencils (stencil_sizes : list nat) (offset : list Q) (steps : list R) : list (list R) :=
  map (fun sos => let '(size, (o, step)) := sos in
         let left := - ((Z.of_nat size - 1) / 2) in
         map (fun s => ((- Q2R o + IZR s) * step)%R) (zrange left (left + Z.of_nat size)))
      (combine stencil_sizes (combine offset steps)).
(** layers_util.py:446-448 [apply_coefficients].  Simplification: equal shapes (no broadcasting). *)
Definition apply_coefficients (coefficients stencil_values : arr R) : result (arr R) :=
  if list_eq_dec Nat.eq_dec (shp coefficients) (shp stencil_values)
  then if (ndim coefficients =? 0)%nat then Err EValue
       else Ok (mkarr (removelast (shp coefficients) ++ [1%nat]) (fun ix =>
              rsum (last (shp coefficients) 0%nat) (fun k => (get coefficients (removelast ix ++ [k]) * get stencil_values (removelast ix ++ [k]))%R)))
  else Err EType.
(** [jnp.roll(a, shifts)] without an axis: the flattened array is rolled by every shift in turn. *)
Definition roll_flat {A} (a : arr A) (shifts : list Z) : arr A :=
  mkarr (shp a) (fun ix => get a (tunflat (shp a) ((tflat (shp a) ix - fold_right Z.add 0 shifts) mod Z.of_nat (asize (shp a))))).

Record spatial_derivative := mkSD { sd_shape : list nat; sd_roll : list Z; sd_constraint : poly_constraint; sd_patches : patch_method; sd_tiles : option (list nat) }.
(** layers.py:586-612 [SpatialDerivativeFromLogits.__init__] *)
Definition make_spatial_derivative (stencil_shape : list nat) (input_offset target_offset : list Q) (derivative_orders : list nat) (steps : list R) (extract_patch_method : patch_method) (tile_layout : option (list nat)) (method : fd_method) : result spatial_derivative :=
  let '(roll, shift) := get_roll_and_shift input_offset target_offset in
  let stencils := get_stencils stencil_shape shift steps in
  let* pc := make_constraint stencils derivative_orders method steps 1 1 None in
  Ok (mkSD stencil_shape roll pc extract_patch_method tile_layout).
(** layers.py:627-632 [SpatialDerivativeFromLogits.extract_patches] *)
Definition sd_extract_patches (sd : spatial_derivative) (inputs : arr R) : result (arr R) :=
  extract_patches (roll_flat inputs (sd_roll sd)) (sd_shape sd) (sd_patches sd) (sd_tiles sd).
(** layers.py:622-640 [_validate_logits] and [__call__] *)
Definition sd_call (sd : spatial_derivative) (inputs logits : arr R) : result (arr R) :=
  if negb (Z.of_nat (last (shp logits) 0%nat) =? pc_subspace_size (sd_constraint sd)) then Err EValue
  else let* coefficients := constraint_call (sd_constraint sd) logits in
       let* patches := sd_extract_patches sd inputs in
       apply_coefficients coefficients patches.
End Oracles.
