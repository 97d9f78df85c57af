(** * The constraint layer and the derivative layer (C46) *)
From Verif Require Import Prelude NdArr ArrayUtils_model ArrayUtilsProps Tiling_model SpecTile TilingProofs TilingProps Stencil_model SpecStencil StencilProofs StencilProps.
From Coq Require Import Qreals.
From Coq Require Lqa.
Set Implicit Arguments.
Local Open Scope R_scope.

Lemma norm_entry v k : (k < length v)%nat -> Rabs (nth k v 0) <= norm2 v.
Proof.
  intros Hk. unfold norm2. rewrite <- sqrt_Rsqr_abs. apply sqrt_le_1_alt. unfold Rsqr. revert k Hk. induction v as [|x v IH]; intros k Hk; cbn [length] in Hk; [lia|]. cbn [map fold_right].
  assert (Hpos : 0 <= fold_right Rplus 0 (map (fun x0 => x0 * x0) v)) by (clear; induction v as [|y v IH]; cbn; [lra | nra]).
  destruct k as [|k]; cbn [nth]; [lra|]. specialize (IH k ltac:(lia)). nra.
Qed.
Lemma norm_zero v : (forall k, (k < length v)%nat -> nth k v 0 = 0) -> norm2 v = 0.
Proof.
  intros H. unfold norm2. replace (fold_right Rplus 0 (map (fun x => x * x) v)) with 0; [apply sqrt_0|]. induction v as [|x v IH]; [reflexivity|]. cbn [map fold_right]. rewrite <- IH; [|intros k Hk; apply (H (S k)); cbn; lia]. pose proof (H 0%nat ltac:(cbn; lia)) as H0. cbn in H0. rewrite H0. ring.
Qed.
Lemma make_inv solve svd sts orders method steps acc bacc bias pc : make_constraint solve svd sts orders method steps acc bacc bias = Ok pc ->
  exists h A b, (forall s, In s steps -> s = h) /\ In h steps /\ polynomial_accuracy_constraints sts method orders acc (Some h) = Ok (A, b) /\
    length (pc_bias pc) = asize (map (@length R) sts) /\
    match bias with Some c => pc_bias pc = c | None => exists g, polynomial_accuracy_coefficients solve sts method orders (Some bacc) (Some h) = Ok g /\ pc_bias pc = ravel g end /\
    (forall k, (k < length A)%nat -> Rabs (dot (nth k A []) (pc_bias pc) - nth k b 0) <= / 10 ^ 8) /\
    pc_subspace_size pc = (Z.of_nat (asize (map (@length R) sts)) - Z.of_nat (length A))%Z /\ pc_subspace_size pc <> 0%Z /\
    pc_nullspace pc = map (map (fun x => x / fold_right Rmult 1 (map (fun k => h ^ k) orders))) (py_slice (svd A) (- pc_subspace_size pc) (Z.of_nat (length (svd A)))).
Proof.
  unfold make_constraint. destruct steps as [|h rest]; [discriminate|]. destruct (existsb _ rest) eqn:Ee; [discriminate|].
  destruct (polynomial_accuracy_constraints sts method orders acc (Some h)) as [(A, b)|er] eqn:E; [|discriminate]. cbn [bind]. destruct (rows_shape _ _ _ _ _ E) as (Hne & Hrow & Hhd). rewrite Hhd.
  match goal with |- bind ?B _ = _ -> _ => destruct B as [bb|er] eqn:Eb; [|discriminate] end. cbn [bind]. destruct (Nat.eqb_spec (length bb) (asize (map (@length R) sts))) as [Hlen|]; [|discriminate]. cbn [negb].
  destruct (Rlt_dec _ _) as [|Hn]; [discriminate|]. destruct (Z.eqb_spec (Z.of_nat (asize (map (@length R) sts)) - Z.of_nat (length A)) 0) as [|Hz]; [discriminate|]. intros [= <-]. cbn [pc_bias pc_nullspace pc_subspace_size].
  exists h, A, b. split. { intros s [<- | Hs]; [reflexivity|]. destruct (Req_EM_T s h) as [|Hd]; [assumption|]. exfalso. rewrite <- not_true_iff_false in Ee. apply Ee. apply existsb_exists. exists s. split; [exact Hs|]. destruct (Req_EM_T s h); [contradiction | reflexivity]. }
  split; [left; reflexivity|]. split; [exact E|]. split; [exact Hlen|]. split.
  { destruct bias as [c|]; [injection Eb as ->; reflexivity|]. destruct (polynomial_accuracy_coefficients solve sts method orders (Some bacc) (Some h)) as [g|er]; [|discriminate]. cbn [bind] in Eb. injection Eb as <-. eauto. }
  split; [|auto]. intros k Hk. assert (HAb : length A = length b) by (destruct (constraints_inv _ _ _ _ _ E) as (_ & _ & _ & cell & _ & HAb & _); exact HAb).
  set (v := map _ (combine A b)) in Hn. assert (Lv : length v = length A) by (unfold v; rewrite map_length, combine_length; lia).
  assert (Ek : nth k v 0 = dot (nth k A []) bb - nth k b 0). { unfold v. rewrite (nth_map' _ _ ([], 0) 0) by (rewrite combine_length; lia). rewrite combine_nth by exact HAb. reflexivity. }
  rewrite <- Ek. eapply Rle_trans; [apply norm_entry; lia|]. replace (/ 10 ^ 8) with (1 / 100000000) by (cbn; lra). lra.
Qed.
Lemma slice_tail {A} (l : list A) (k : Z) : (0 < k <= Z.of_nat (length l))%Z -> py_slice l (- k) (Z.of_nat (length l)) = skipn (length l - Z.to_nat k) l.
Proof.
  intros H. unfold py_slice. rewrite (@py_bound (length l) (Z.of_nat (length l))) by lia. replace (py_slice_bound (length l) (- k)) with (length l - Z.to_nat k)%nat.
  - rewrite Nat2Z.id. rewrite <- (firstn_all (skipn (length l - Z.to_nat k) l)) at 2. rewrite skipn_length. reflexivity.
  - unfold py_slice_bound. replace (- k <? 0)%Z with true by (symmetry; apply Z.ltb_lt; lia). lia.
Qed.
(** the weights of one output entry *)
Definition weights_at (out : arr R) (n : nat) (ix : list Z) : list R := map (fun k => get out (ix ++ [Z.of_nat k])) (seq 0 n).
Lemma removelast_app1 {A} (l : list A) x : removelast (l ++ [x]) = l.
Proof. rewrite removelast_app by discriminate. cbn. apply app_nil_r. Qed.
Lemma nth_skipn' {A} n (l : list A) i d : nth i (skipn n l) d = nth (n + i) l d.
Proof. revert l. induction n as [|n IH]; intros [|x l]; cbn [skipn Nat.add]; [destruct i; reflexivity | reflexivity | destruct i; reflexivity | apply IH]. Qed.
(** all outputs have the same product with the rows of the system as the bias *)
Lemma call_residual solve svd sts orders method steps acc bacc bias pc h A b inputs out ix : correct_svd svd -> make_constraint solve svd sts orders method steps acc bacc bias = Ok pc ->
  polynomial_accuracy_constraints sts method orders acc (Some h) = Ok (A, b) -> In h steps -> (0 < pc_subspace_size pc)%Z -> constraint_call pc inputs = Ok out ->
  length (weights_at out (asize (map (@length R) sts)) ix) = asize (map (@length R) sts) /\
  forall row, In row A -> rsum (asize (map (@length R) sts)) (fun k => nth (Z.to_nat k) row 0 * nth (Z.to_nat k) (weights_at out (asize (map (@length R) sts)) ix) 0) = dot row (pc_bias pc).
Proof.
  intros Hsvd E EA Hin Hpos Ecall. set (n := asize (map (@length R) sts)). split; [unfold weights_at; rewrite map_length, seq_length; reflexivity|].
  destruct (make_inv _ _ _ _ _ _ _ _ _ E) as (h' & A' & b' & Hall & _ & EA' & Hlen & _ & _ & Hsz & Hnz & Hnull). rewrite (Hall h Hin) in EA. rewrite EA in EA'. injection EA' as <- <-.
  destruct (rows_shape _ _ _ _ _ EA) as (Hne & Hrow & _). fold n in Hrow, Hlen, Hsz. destruct (Hsvd A n Hne Hrow) as (LV & LVrow & Hort).
  rewrite slice_tail in Hnull by lia. rewrite LV in Hnull. replace (n - Z.to_nat (pc_subspace_size pc))%nat with (length A) in Hnull by lia.
  set (sc := fold_right Rmult 1 (map (fun k => h' ^ k) orders)) in Hnull.
  unfold constraint_call in Ecall. destruct (ndim inputs =? 0)%nat; [discriminate|]. destruct (negb _); [discriminate|]. injection Ecall as <-.
  intros row Hr. rewrite dot_sum by (rewrite (Hrow row Hr); exact Hlen). rewrite (Hrow row Hr).
  transitivity (rsum n (fun k => nth (Z.to_nat k) row 0 * nth (Z.to_nat k) (pc_bias pc) 0 + rsum (length (pc_nullspace pc)) (fun j => get inputs (ix ++ [j]) * (nth (Z.to_nat k) row 0 * nth (Z.to_nat k) (nth (Z.to_nat j) (pc_nullspace pc) []) 0)))).
  { apply rsum_ext. intros k Hk. unfold weights_at. rewrite (@nth_map_seq _ (fun k0 => get _ (ix ++ [Z.of_nat k0]))) by lia. cbn [get]. rewrite removelast_app1, last_last. rewrite Z2Nat.id by lia. rewrite Rmult_plus_distr_l. f_equal. rewrite <- rsum_scal. apply rsum_ext. intros j _. ring. }
  rewrite rsum_plus. rewrite rsum_swap. rewrite (@rsum_ext (length (pc_nullspace pc)) _ (fun _ => 0)); [rewrite rsum_0; ring|].
  intros j Hj. rewrite rsum_scal. rewrite Hnull in Hj |- *. rewrite map_length, skipn_length in Hj.
  rewrite (@rsum_ext n _ (fun k => (nth (Z.to_nat k) row 0 * nth (Z.to_nat k) (nth (length A + Z.to_nat j) (svd A) []) 0) * / sc)).
  - rewrite rsum_scal_r. rewrite Hort by (auto; lia). ring.
  - intros k Hk. rewrite (nth_map' _ _ [] []) by (rewrite skipn_length; lia). rewrite nth_skipn'. rewrite (nth_map' _ _ 0 0); [unfold Rdiv; ring|]. rewrite (LVrow (nth (length A + Z.to_nat j) (svd A) [])); [lia|]. apply nth_In. lia.
Qed.
Lemma bias_solves solve sts orders method acc bacc h g A b : correct_solver solve -> polynomial_accuracy_constraints sts method orders acc (Some h) = Ok (A, b) ->
  polynomial_accuracy_coefficients solve sts method orders (Some bacc) (Some h) = Ok g -> (acc <= bacc)%Z -> (forall i, (i < length sts)%nat -> (Z.of_nat (nth i orders 0%nat) + bacc <= Z.of_nat (length (nth i sts [])))%Z) ->
  length (ravel g) = asize (map (@length R) sts) /\ solves A b (ravel g).
Proof.
  intros Hsol EA Eg Hab Hfit. destruct (constraints_inv _ _ _ _ _ EA) as (HL & Ha & Hs & cell & Ec & _).
  destruct (@coefs_exact solve sts method orders (Some bacc) h g cell acc Hsol Ec Eg Ha) as (Sg & _ & X). { intros i Hi. specialize (Hfit i Hi). lia. }
  assert (Lg : length (ravel g) = asize (map (@length R) sts)) by (rewrite ravel_length, Sg; reflexivity). split; [exact Lg|]. apply (@solves_exact sts method orders acc (Some h) A b cell (ravel g) EA Ec Lg). exact X.
Qed.

(* @prop C46 Every output of the constraint layer with its default bias gives the exact derivative at the target point of every polynomial of total degree at most accuracy_order + sum(derivative_orders) - 1, whatever the inputs (the network's output): for finite differences and finite volumes, any stencils with at least derivative order + bias accuracy order cells on each axis, any number of axes. *)
Lemma constrained_weights_exact_lem : forall solve svd stencils orders method steps h acc bias_acc pc inputs out ix, correct_solver solve -> correct_svd svd ->
  make_constraint solve svd stencils orders method steps acc bias_acc None = Ok pc -> In h steps -> (acc <= bias_acc)%Z ->
  (forall i, (i < length stencils)%nat -> (Z.of_nat (nth i orders 0%nat) + bias_acc <= Z.of_nat (length (nth i stencils [])))%Z) -> (0 < pc_subspace_size pc)%Z ->
  constraint_call pc inputs = Ok out -> inb (removelast (shp inputs)) ix ->
  shp out = removelast (shp inputs) ++ [fold_right Nat.mul 1%nat (map (@length R) stencils)] /\
  exact_up_to (Z.to_nat (acc + Z.of_nat (fold_right Nat.add 0%nat orders) - 1)) (cell_size method h) stencils orders
    (map (fun k => get out (ix ++ [Z.of_nat k])) (seq 0 (fold_right Nat.mul 1%nat (map (@length R) stencils)))).
Proof.
  intros solve svd sts orders method steps h acc bacc pc inputs out ix Hsol Hsvd E Hh Hab Hfit Hpos Ecall Hix.
  destruct (make_inv _ _ _ _ _ _ _ _ _ E) as (h' & A & b & Hall & _ & EA & Hlen & (g & Eg & Hg) & _). rewrite <- (Hall h Hh) in EA, Eg.
  destruct (@bias_solves solve sts orders method acc bacc h g A b Hsol EA Eg Hab Hfit) as (Lg & Hs).
  split. { unfold constraint_call in Ecall. destruct (ndim inputs =? 0)%nat; [discriminate|]. destruct (negb _); [discriminate|]. injection Ecall as <-. cbn [shp]. rewrite Hlen. reflexivity. }
  destruct (@call_residual solve svd sts orders method steps acc bacc None pc h A b inputs out ix Hsvd E EA Hh Hpos Ecall) as (LW & HW).
  destruct (constraints_inv _ _ _ _ _ EA) as (HL & Ha & Hne & cell & Ec & HAb & _). rewrite <- (@cell_ok _ _ _ Ec). apply (@solves_exact sts method orders acc (Some h) A b cell _ EA Ec); [exact LW|].
  split; [exact HAb|]. intros k Hk. assert (Hin : In (nth k A []) A) by (apply nth_In; exact Hk). change (asize (map (@length R) sts)) with (fold_right Nat.mul 1%nat (map (@length R) sts)) in *. fold (weights_at out (fold_right Nat.mul 1%nat (map (@length R) sts)) ix). rewrite LW. etransitivity; [apply (HW _ Hin)|].
  destruct (rows_shape _ _ _ _ _ EA) as (_ & Hrow & _). rewrite dot_sum by (rewrite (Hrow _ Hin); exact Hlen). rewrite Hg. destruct Hs as (_ & Hs). specialize (Hs k Hk). rewrite <- Hs. rewrite (Hrow _ Hin), Lg. reflexivity.
Qed.
(* @prop C46 With a bias supplied by the caller: if the layer accepts it, every output of the layer, whatever its input, differentiates every polynomial of that degree up to an error of 1e-8 times the sum of the absolute values of its coefficients. *)
Lemma supplied_bias_accuracy_lem : forall solve svd stencils orders method steps h acc bias_acc bias pc inputs out ix p, correct_svd svd ->
  make_constraint solve svd stencils orders method steps acc bias_acc (Some bias) = Ok pc -> In h steps -> (0 < pc_subspace_size pc)%Z ->
  constraint_call pc inputs = Ok out -> inb (removelast (shp inputs)) ix -> degree_at_most (length stencils) (Z.to_nat (acc + Z.of_nat (fold_right Nat.add 0%nat orders) - 1)) p ->
  Rabs (stencil_sum stencils (map (fun k => get out (ix ++ [Z.of_nat k])) (seq 0 (fold_right Nat.mul 1%nat (map (@length R) stencils)))) (fun t => sample (cell_size method h) p (position stencils t)) - poly_at (derivative 0 orders p) (repeat 0 (length stencils)))
    <= / 10 ^ 8 * fold_right Rplus 0 (map (fun ae => Rabs (fst ae)) p).
Proof.
  intros solve svd sts orders method steps h acc bacc bias pc inputs out ix p Hsvd E Hh Hpos Ecall Hix Hp.
  destruct (make_inv _ _ _ _ _ _ _ _ _ E) as (h' & A & b & Hall & _ & EA & Hlen & _ & Hres & _). rewrite <- (Hall h Hh) in EA.
  destruct (@call_residual solve svd sts orders method steps acc bacc (Some bias) pc h A b inputs out ix Hsvd E EA Hh Hpos Ecall) as (LW & HW).
  destruct (constraints_inv _ _ _ _ _ EA) as (HL & Ha & Hne & cell & Ec & HAb & HR). rewrite <- (@cell_ok _ _ _ Ec). change (fold_right Nat.mul 1%nat (map (@length R) sts)) with (asize (map (@length R) sts)). fold (weights_at out (asize (map (@length R) sts)) ix). set (w := weights_at out (asize (map (@length R) sts)) ix) in *.
  rewrite ssum_poly, (@deriv_poly (length sts)); [| auto | eapply Forall_impl; [|exact Hp]; intros ae (H1 & _); exact H1]. unfold degree_at_most in Hp.
  induction p as [|(a, e) p IH]; [cbn; rewrite Rminus_0_r, Rabs_R0; lra|]. inversion_clear Hp as [|x l (H1 & H1') H2]. cbn [map fold_right fst snd] in *. specialize (IH H2).
  assert (He : Rabs (stencil_sum sts w (fun t => term_sample cell e (position sts t)) - row_rhs orders e) <= / 10 ^ 8).
  { destruct (proj2 (HR (row_lhs cell sts e, row_rhs orders e))) as (k & Hk & E1 & E2); [exists e; unfold max_deg; auto|]. cbn [fst snd] in E1, E2. specialize (Hres k Hk). rewrite <- (HW (nth k A [])) in Hres by (apply nth_In; exact Hk). rewrite E1, E2, row_dot in Hres by exact H1. exact Hres. }
  match goal with |- Rabs (?a * ?S + ?T - (?a * ?r + ?U)) <= _ => replace (a * S + T - (a * r + U)) with (a * (S - r) + (T - U)) by ring end. eapply Rle_trans; [apply Rabs_triang|]. rewrite Rabs_mult. pose proof (Rabs_pos a) as Pa. rewrite Rmult_plus_distr_l. apply Rplus_le_compat; [|exact IH]. rewrite (Rmult_comm (/ 10 ^ 8)). apply Rmult_le_compat_l; assumption.
Qed.
(* @prop C46 Zero inputs are mapped to the bias. *)
Lemma zero_input_gives_bias_lem : forall pc inputs out ix k, constraint_call pc inputs = Ok out -> (forall jx, get inputs jx = 0) -> get out (ix ++ [k]) = nth (Z.to_nat k) (pc_bias pc) 0.
Proof.
  intros pc inputs out ix k Ec Hz. unfold constraint_call in Ec. destruct (ndim inputs =? 0)%nat; [discriminate|]. destruct (negb _); [discriminate|]. injection Ec as <-. cbn [get]. rewrite last_last. rewrite (@rsum_ext _ _ (fun _ => 0)); [rewrite rsum_0; ring|]. intros j _. rewrite Hz. ring.
Qed.
(* @prop C46 The default bias passes the layer's own check: whenever the constraints and the default coefficients can be computed, the accuracy of the bias is at least that of the constraints, the stencils are large enough and the solution is not unique, the layer is constructed, with this bias and subspace size columns minus rows. *)
Lemma default_bias_accepted_lem : forall solve svd stencils orders method h steps acc bias_acc A b g, correct_solver solve -> (forall s, In s steps -> s = h) -> steps <> [] ->
  polynomial_accuracy_constraints stencils method orders acc (Some h) = Ok (A, b) -> polynomial_accuracy_coefficients solve stencils method orders (Some bias_acc) (Some h) = Ok g -> (acc <= bias_acc)%Z ->
  (forall i, (i < length stencils)%nat -> (Z.of_nat (nth i orders 0%nat) + bias_acc <= Z.of_nat (length (nth i stencils [])))%Z) -> length A <> fold_right Nat.mul 1%nat (map (@length R) stencils) ->
  exists pc, make_constraint solve svd stencils orders method steps acc bias_acc None = Ok pc /\ pc_bias pc = ravel g /\ pc_subspace_size pc = (Z.of_nat (fold_right Nat.mul 1%nat (map (@length R) stencils)) - Z.of_nat (length A))%Z.
Proof.
  intros solve svd sts orders method h steps acc bacc A b g Hsol Hall Hst EA Eg Hab Hfit Hneq. destruct steps as [|h' rest]; [congruence|]. assert (h' = h) by (apply Hall; left; reflexivity). subst h'. unfold make_constraint.
  replace (existsb _ rest) with false. 2:{ symmetry. apply not_true_is_false. intros He. apply existsb_exists in He. destruct He as (s & Hs & Hd). rewrite (Hall s (or_intror Hs)) in Hd. destruct (Req_EM_T h h); [discriminate | congruence]. }
  rewrite EA. cbn [bind]. rewrite Eg. cbn [bind]. destruct (rows_shape _ _ _ _ _ EA) as (Hne & Hrow & Hhd). rewrite Hhd. destruct (@bias_solves solve sts orders method acc bacc h g A b Hsol EA Eg Hab Hfit) as (Lg & (HAb & Hs)). rewrite Lg, Nat.eqb_refl. cbn [negb].
  rewrite norm_zero. 2:{ intros k Hk. rewrite map_length, combine_length in Hk. rewrite (nth_map' _ _ ([], 0) 0) by (rewrite combine_length; lia). rewrite combine_nth by exact HAb. cbn [fst snd]. assert (Hin : In (nth k A []) A) by (apply nth_In; lia). rewrite dot_sum by (rewrite (Hrow _ Hin); exact Lg). rewrite (Hrow _ Hin), <- Lg, (Hs k) by lia. ring. }
  destruct (Rlt_dec (1 / 100000000) 0) as [Hlt|]; [exfalso; lra|]. change (asize (map (@length R) sts)) with (fold_right Nat.mul 1%nat (map (@length R) sts)). destruct (Z.eqb_spec (Z.of_nat (fold_right Nat.mul 1%nat (map (@length R) sts)) - Z.of_nat (length A)) 0) as [Hz|_]; [exfalso; lia|]. eexists. repeat split.
Qed.
(* @prop C46 The layer refuses steps that are not all equal (and an empty tuple of steps), an accuracy order below one, a number of derivative orders different from the number of stencils, and a problem with only one solution; and it refuses inputs whose last dimension is not the subspace size. *)
Lemma layer_refuses_lem : forall solve svd stencils orders method steps acc bias_acc bias,
  ((forall h, In h steps -> exists s, In s steps /\ s <> h) -> make_constraint solve svd stencils orders method steps acc bias_acc bias = Err EValue) /\
  ((acc < 1)%Z \/ length stencils <> length orders -> forall pc, make_constraint solve svd stencils orders method steps acc bias_acc bias <> Ok pc) /\
  (forall h A b, In h steps -> polynomial_accuracy_constraints stencils method orders acc (Some h) = Ok (A, b) -> length A = fold_right Nat.mul 1%nat (map (@length R) stencils) -> forall pc, make_constraint solve svd stencils orders method steps acc bias_acc bias <> Ok pc) /\
  (correct_svd svd -> forall pc inputs N k, make_constraint solve svd stencils orders method steps acc bias_acc bias = Ok pc -> (0 < pc_subspace_size pc)%Z -> shp inputs = N ++ [k] -> Z.of_nat k <> pc_subspace_size pc -> constraint_call pc inputs = Err EType).
Proof.
  intros solve svd sts orders method steps acc bacc bias. repeat split.
  - intros H. unfold make_constraint. destruct steps as [|h rest]; [reflexivity|]. replace (existsb _ rest) with true; [reflexivity|]. symmetry. apply existsb_exists. destruct (H h (or_introl eq_refl)) as (s & [<- | Hs] & Hd); [congruence|]. exists s. split; [exact Hs|]. destruct (Req_EM_T s h); [contradiction | reflexivity].
  - intros H pc E. destruct (make_inv _ _ _ _ _ _ _ _ _ E) as (h & A & b & _ & _ & EA & _). destruct (constraints_inv _ _ _ _ _ EA) as (HL & Ha & _). destruct H; [lia | contradiction].
  - intros h A b Hh EA Hlen pc E. destruct (make_inv _ _ _ _ _ _ _ _ _ E) as (h' & A' & b' & Hall & _ & EA' & _ & _ & _ & Hs & Hz & _). rewrite <- (Hall h Hh), EA in EA'. injection EA' as <- <-. change (asize (map (@length R) sts)) with (fold_right Nat.mul 1%nat (map (@length R) sts)) in Hs. lia.
  - intros Hsvd pc inputs N k E Hpos Hx Hk. destruct (make_inv _ _ _ _ _ _ _ _ _ E) as (h' & A & b & _ & _ & EA & _ & _ & _ & Hs & _ & Hnull). destruct (rows_shape _ _ _ _ _ EA) as (Hne & Hrow & _). destruct (Hsvd A _ Hne Hrow) as (LV & _ & _). rewrite slice_tail in Hnull by (rewrite LV; lia).
    unfold constraint_call. assert (En : ndim inputs = S (length N)) by (unfold ndim; rewrite Hx, app_length; cbn; lia). rewrite En. cbn [Nat.eqb Nat.sub]. rewrite Nat.sub_0_r, Hx, app_nth2, Nat.sub_diag by lia. cbn [nth]. rewrite Hnull, map_length, skipn_length, LV. destruct (Nat.eqb_spec k (asize (map (@length R) sts) - (asize (map (@length R) sts) - Z.to_nat (pc_subspace_size pc)))) as [Heq|]; [exfalso; lia | reflexivity].
Qed.

(** ** geometry *)
Lemma zrange_len a b : length (zrange a b) = Z.to_nat (b - a). Proof. unfold zrange. rewrite map_length, seq_length. reflexivity. Qed.
Lemma zrange_nth a b k d : (k < Z.to_nat (b - a))%nat -> nth k (zrange a b) d = (a + Z.of_nat k)%Z.
Proof. intros H. unfold zrange. rewrite (@nth_map_seq _ (fun i => (a + Z.of_nat i)%Z)) by exact H. reflexivity. Qed.
Lemma before_z k : (0 < k)%nat -> ((Z.of_nat k - 1) / 2)%Z = Z.of_nat (before k).
Proof. intros H. unfold before. rewrite Nat2Z.inj_div. f_equal. lia. Qed.
Lemma roll_nth input target i : (i < length input)%nat -> length target = length input ->
  nth i (fst (get_roll_and_shift input target)) 0%Z = (- Qround.Qfloor (nth i target 0%Q - nth i input 0%Q))%Z /\
  nth i (snd (get_roll_and_shift input target)) 0%Q = (nth i target 0%Q - nth i input 0%Q + inject_Z (- Qround.Qfloor (nth i target 0%Q - nth i input 0%Q)))%Q.
Proof.
  intros Hi HL. unfold get_roll_and_shift. cbn [fst snd]. set (delta := map _ (combine target input)).
  assert (Ld : length delta = length input) by (unfold delta; rewrite map_length, combine_length; lia).
  assert (Ed : nth i delta 0%Q = (nth i target 0%Q - nth i input 0%Q)%Q). { unfold delta. rewrite (nth_map' _ _ (0%Q, 0%Q) 0%Q) by (rewrite combine_length; lia). rewrite combine_nth by exact HL. reflexivity. }
  assert (Er : nth i (map (fun d => (- Qround.Qfloor d)%Z) delta) 0%Z = (- Qround.Qfloor (nth i target 0%Q - nth i input 0%Q))%Z). { rewrite (nth_map' _ _ 0%Q 0%Z) by lia. rewrite Ed. reflexivity. }
  split; [exact Er|]. rewrite (nth_map' _ _ (0%Q, 0%Z) 0%Q) by (rewrite combine_length, map_length; lia). rewrite combine_nth by (rewrite map_length; reflexivity). cbn [fst snd]. rewrite Ed, Er. reflexivity.
Qed.
Lemma shift_length input target : length target = length input -> length (snd (get_roll_and_shift input target)) = length input /\ length (fst (get_roll_and_shift input target)) = length input.
Proof. intros HL. unfold get_roll_and_shift. cbn [fst snd]. rewrite !map_length, !combine_length, !map_length, !combine_length. lia. Qed.
(* @prop C46 get_roll_and_shift splits the displacement between the offsets into whole cells and a fraction: the shift is in [0, 1) and shift minus roll is the displacement, on every axis. *)
Lemma roll_and_shift_lem : forall input target i, (i < length input)%nat -> length target = length input ->
  (0 <= nth i (snd (get_roll_and_shift input target)) 0 < 1)%Q /\
  (nth i (snd (get_roll_and_shift input target)) 0 - inject_Z (nth i (fst (get_roll_and_shift input target)) 0%Z) == nth i target 0 - nth i input 0)%Q.
Proof.
  intros input target i Hi HL. destruct (roll_nth _ _ Hi HL) as (-> & ->). set (d := (nth i target 0 - nth i input 0)%Q). pose proof (Qround.Qfloor_le d) as H1. pose proof (Qround.Qlt_floor d) as H2. rewrite inject_Z_plus in H2. rewrite inject_Z_opp. change (inject_Z 1) with 1%Q in H2. repeat split; [ | | ring].
  - Lqa.lra.
  - Lqa.lra.
Qed.
(* @ex *)
Lemma roll_and_shift_ex_lem : get_roll_and_shift [1; 1 # 2]%Q [1 # 2; 1]%Q = ([1%Z; 0%Z], [1 # 2; 1 # 2]%Q).
Proof. reflexivity. Qed.
Lemma stencils_nth S shift steps i : length shift = length S -> length steps = length S -> (i < length S)%nat -> (0 < nth i S 0)%nat ->
  length (nth i (get_stencils S shift steps) []) = nth i S 0%nat /\ forall t, (t < nth i S 0)%nat -> nth t (nth i (get_stencils S shift steps) []) 0 = (IZR (Z.of_nat t - Z.of_nat (before (nth i S 0%nat))) - Q2R (nth i shift 0%Q)) * nth i steps 0.
Proof.
  intros L1 L2 Hi Hp. unfold get_stencils. rewrite (nth_map' _ _ (0%nat, (0%Q, 0)) []) by (rewrite !combine_length; lia). rewrite combine_nth by (rewrite combine_length; lia). rewrite combine_nth by lia. cbv beta iota. rewrite before_z by exact Hp.
  set (l := (- Z.of_nat (before (nth i S 0%nat)))%Z). split; [rewrite map_length, zrange_len; lia|]. intros t Ht. rewrite (nth_map' _ _ 0%Z 0) by (rewrite zrange_len; lia). rewrite zrange_nth by lia. f_equal. unfold l. rewrite plus_IZR, opp_IZR, minus_IZR. ring.
Qed.
Lemma stencils_sizes S shift steps : length shift = length S -> length steps = length S -> (forall i, (i < length S)%nat -> (0 < nth i S 0)%nat) -> map (@length R) (get_stencils S shift steps) = S.
Proof.
  intros L1 L2 Hp. assert (HL : length (get_stencils S shift steps) = length S) by (unfold get_stencils; rewrite map_length, !combine_length; lia). apply (list_ext_nth 0%nat); [rewrite map_length; exact HL|]. intros i Hi. rewrite map_length in Hi. rewrite (nth_map' _ _ [] 0%nat) by exact Hi. apply stencils_nth; auto; [lia | apply Hp; lia].
Qed.
(* @prop C46 The stencil built for a pair of offsets consists of the true positions, relative to the target point, of the cells that roll and patch extraction deliver: cell t of a patch lies t - (size - 1) // 2 cells after the input cell just before the target. *)
Lemma stencil_positions_lem : forall S input target steps h t, length input = length S -> length target = length S -> steps = repeat h (length S) -> (forall i, (i < length S)%nat -> (0 < nth i S 0)%nat) -> inb S t ->
  position (get_stencils S (snd (get_roll_and_shift input target)) steps) t = relative_position S input target h t.
Proof.
  intros S input target steps h t L1 L2 -> Hp Ht. destruct (shift_length input target ltac:(lia)) as (Ls & _).
  assert (HL : length (get_stencils S (snd (get_roll_and_shift input target)) (repeat h (length S))) = length S) by (unfold get_stencils; rewrite map_length, !combine_length, repeat_length; lia).
  unfold position, relative_position. rewrite HL. apply map_ext_in. intros i Hi. apply in_seq in Hi. pose proof (@inb_nth _ _ i Ht ltac:(lia)) as Hti.
  destruct (@stencils_nth S (snd (get_roll_and_shift input target)) (repeat h (length S)) i ltac:(lia) (repeat_length _ _) ltac:(lia) (Hp i ltac:(lia))) as (_ & E). rewrite E by lia. rewrite nth_repeat' by lia. f_equal.
  destruct (@roll_nth input target i ltac:(lia) ltac:(lia)) as (_ & ->). rewrite Z2Nat.id by lia. rewrite Q2R_plus, Q2R_minus. set (f := Qround.Qfloor (nth i target 0%Q - nth i input 0%Q)). rewrite plus_IZR. unfold Q2R at 3. cbn [inject_Z Qnum Qden]. rewrite opp_IZR. field.
Qed.
(* @ex *)
Lemma stencil_positions_ex_lem : position (get_stencils [4%nat] (snd (get_roll_and_shift [1 # 2]%Q [1]%Q)) [2]) [1%Z] = [-1].
Proof.
  rewrite (@stencil_positions_lem [4%nat] [1 # 2]%Q [1]%Q [2] 2 [1%Z]); [ | reflexivity | reflexivity | reflexivity | intros [|i] Hi; cbn in *; lia | cbn; lia].
  unfold relative_position. cbn [length seq map nth]. f_equal. replace (Qround.Qfloor (1 - (1 # 2))) with 0%Z by reflexivity. unfold before, Q2R. cbn. lra.
Qed.

(** ** the derivative layer *)
Lemma tunflat_len L : forall k, length (tunflat L k) = length L.
Proof. induction L as [|n L IH]; intros k; [reflexivity|]. cbn [tunflat length]. rewrite IH. reflexivity. Qed.
Lemma roll_flat_none {A} (x : arr A) shifts ix : fold_right Z.add 0%Z shifts = 0%Z -> inb (shp x) ix -> get (roll_flat x shifts) ix = get x ix.
Proof.
  intros H Hi. unfold roll_flat. cbn [get]. rewrite H, Z.sub_0_r. pose proof (@tflat_range _ _ Hi) as Hr. rewrite Z.mod_small by lia. rewrite tunflat_flat by exact Hi. reflexivity.
Qed.
Lemma roll_flat_1d {A} (x : arr A) n r i : shp x = [n; 1%nat] -> (0 < n)%nat -> get (roll_flat x [r]) [i; 0%Z] = get x [((i - r) mod Z.of_nat n)%Z; 0%Z].
Proof.
  intros Hx Hn. unfold roll_flat. cbn [get]. rewrite Hx. cbn [tflat tunflat fold_right]. unfold asize. cbn [fold_right]. rewrite !Nat.mul_1_r, Z.add_0_r, !Z.mul_1_r, Z.add_0_r. rewrite Z.div_1_r, Z.mod_1_r, Z.div_0_l by lia. reflexivity.
Qed.
Lemma zero_sum l : (forall i, (i < length l)%nat -> nth i l 0%Z = 0%Z) -> fold_right Z.add 0%Z l = 0%Z.
Proof. induction l as [|x l IH]; intros H; [reflexivity|]. cbn [fold_right]. rewrite IH by (intros i Hi; apply (H (S i)); cbn; lia). pose proof (H 0%nat ltac:(cbn; lia)) as H0. cbn in H0. lia. Qed.
Lemma cell_at_in N pad ix t : (forall i, (i < length N)%nat -> (0 < nth i N 0)%nat) -> inb N (cell_at N pad ix t).
Proof.
  intros H. apply inb_intro; [unfold cell_at; rewrite map_length, seq_length; reflexivity|]. intros i Hi. unfold cell_at. rewrite (@nth_map_seq _ (fun i => ((nth i ix 0 + nth i t 0 - Z.of_nat (nth i pad 0%nat)) mod Z.of_nat (nth i N 0%nat))%Z)) by lia. specialize (H i ltac:(lia)). apply Z.mod_pos_bound. lia.
Qed.
Lemma rolled_cell (x : arr R) N S input target ix t : channels_last x N 1 -> (forall i, (i < length N)%nat -> (0 < nth i N 0)%nat) -> length S = length N -> length input = length N -> length target = length N ->
  (length N = 1%nat \/ forall i, (i < length N)%nat -> Qround.Qfloor (nth i target 0%Q - nth i input 0%Q) = 0%Z) ->
  get (roll_flat x (fst (get_roll_and_shift input target))) (cell_at N (map before S) ix t ++ [0%Z]) = get x (neighbour N S input target ix t ++ [0%Z]).
Proof.
  intros Hx Hp LS Li Lt Hc. unfold channels_last in Hx. destruct (shift_length input target ltac:(lia)) as (_ & Lr). destruct Hc as [H1|H0].
  - destruct N as [|n [|? ?]]; cbn in H1; try lia. destruct S as [|s [|? ?]]; cbn in LS; try lia. cbn [length] in *. pose proof (@roll_nth input target 0 ltac:(lia) ltac:(lia)) as (Er & _). destruct (fst (get_roll_and_shift input target)) as [|r [|? ?]]; cbn [length] in Lr; try lia. cbn [nth] in Er. subst r.
    unfold cell_at, neighbour. cbn [length seq map nth app]. rewrite (@roll_flat_1d _ x n) by (auto; apply (Hp 0%nat); lia). f_equal. f_equal. rewrite Zminus_mod_idemp_l. f_equal. lia.
  - rewrite roll_flat_none.
    + f_equal. f_equal. unfold cell_at, neighbour. apply map_ext_in. intros i Hi. apply in_seq in Hi. rewrite H0 by lia. f_equal. rewrite (nth_map' _ _ 0%nat 0%nat) by lia. lia.
    + apply zero_sum. intros i Hi. destruct (@roll_nth input target i ltac:(lia) ltac:(lia)) as (-> & _). rewrite H0 by lia. reflexivity.
    + rewrite Hx. apply inb_app_intro; [apply cell_at_in; exact Hp | cbn; lia].
Qed.

Definition layout_fits (N S : list nat) (pmethod : patch_method) (layout : option (list nat)) : Prop :=
  pmethod = PConv -> exists m, tiled_by N (match layout with Some L => L | None => repeat 1%nat (length N) end) m /\ forall i, (i < length N)%nat -> (nth i S 0 / 2 <= nth i m 0)%nat.
Lemma patches_ok (xr : arr R) N S pmethod layout : channels_last xr N 1 -> length S = length N -> (forall i, (i < length N)%nat -> (0 < nth i N 0 /\ 0 < nth i S 0)%nat) -> layout_fits N S pmethod layout -> pmethod <> POther ->
  exists pa, extract_patches xr S pmethod layout = Ok pa /\ channels_last pa N (asize S) /\ forall jx t, inb N jx -> inb S t -> get pa (jx ++ [tile_number S t]) = get xr (cell_at N (map before S) jx t ++ [0%Z]).
Proof.
  intros Hxr LS Hsz Hfit Hm. destruct pmethod; [| |congruence].
  - destruct (@roll_patches_lem xr N S layout Hxr LS) as (pa' & E' & C' & G'); [intros i Hi; specialize (Hsz i Hi); lia|]. exists pa'. auto.
  - destruct (Hfit eq_refl) as (m & Hm1 & Hm2). destruct (@conv_patches_are_roll_patches_lem xr N S layout m Hxr LS Hsz Hm1 Hm2) as (y1 & y2 & E1 & E2 & Heq & G1). exists y1. split; [exact E1|]. split; [|exact G1].
    destruct (@roll_patches_lem xr N S layout Hxr LS) as (pa' & E' & C' & _); [intros i Hi; specialize (Hsz i Hi); lia|]. rewrite E' in E2. injection E2 as <-. destruct Heq as (Hs & _). unfold channels_last in *. rewrite Hs. exact C'.
Qed.
Lemma sd_inv solve svd S input target orders steps pmethod layout method sd (N : list nat) h : length S = length N -> length input = length N -> length target = length N -> steps = repeat h (length N) -> (forall i, (i < length N)%nat -> (0 < nth i S 0)%nat) ->
  make_spatial_derivative solve svd S input target orders steps pmethod layout method = Ok sd ->
  exists pc, make_constraint solve svd (get_stencils S (snd (get_roll_and_shift input target)) steps) orders method steps 1 1 None = Ok pc /\ sd = mkSD S (fst (get_roll_and_shift input target)) pc pmethod layout /\
    map (@length R) (get_stencils S (snd (get_roll_and_shift input target)) steps) = S /\ length (get_stencils S (snd (get_roll_and_shift input target)) steps) = length N /\ length (pc_bias pc) = asize S /\ pc_subspace_size pc <> 0%Z /\ In h steps.
Proof.
  intros LS Li Lt Est Hsz Emk. unfold make_spatial_derivative in Emk. destruct (get_roll_and_shift input target) as (roll, shift) eqn:Ers. cbn [fst snd]. set (sts := get_stencils S shift steps) in *. destruct (make_constraint solve svd sts orders method steps 1 1 None) as [pc|er] eqn:Epc; [|discriminate]. cbn [bind] in Emk. injection Emk as <-. exists pc.
  destruct (shift_length input target ltac:(lia)) as (Lsh & _). rewrite Ers in Lsh. cbn [snd] in Lsh. assert (Lst : length steps = length S) by (rewrite Est, repeat_length; lia).
  assert (Esz : map (@length R) sts = S) by (apply stencils_sizes; [lia | exact Lst | intros i Hi; apply Hsz; lia]). assert (Lsts : length sts = length N) by (rewrite <- LS, <- Esz, map_length; reflexivity).
  destruct (make_inv _ _ _ _ _ _ _ _ _ Epc) as (h' & A & b & Hall & Hh' & EA & Hlen & _ & _ & _ & Hnz & _). rewrite Esz in Hlen. assert (h' = h). { rewrite Est in Hh'. apply repeat_spec in Hh'. exact Hh'. } subst h'. auto 10.
Qed.
Lemma nullspace_length solve svd sts orders method steps acc bacc bias pc : correct_svd svd -> make_constraint solve svd sts orders method steps acc bacc bias = Ok pc -> (0 < pc_subspace_size pc)%Z -> Z.of_nat (length (pc_nullspace pc)) = pc_subspace_size pc.
Proof.
  intros Hsvd E Hpos. destruct (make_inv _ _ _ _ _ _ _ _ _ E) as (h' & A & b & _ & _ & EA & _ & _ & _ & Hs & _ & Hnull). destruct (rows_shape _ _ _ _ _ EA) as (Hne & Hrow & _). destruct (Hsvd A _ Hne Hrow) as (LV & _ & _). rewrite slice_tail in Hnull by (rewrite LV; lia). rewrite Hnull, map_length, skipn_length, LV. lia.
Qed.
Lemma sd_value solve svd S input target orders steps h pmethod layout method sd (x logits y : arr R) N : 
  length S = length N -> length input = length N -> length target = length N -> steps = repeat h (length N) -> (forall i, (i < length N)%nat -> (0 < nth i N 0 /\ 0 < nth i S 0)%nat) -> layout_fits N S pmethod layout ->
  make_spatial_derivative solve svd S input target orders steps pmethod layout method = Ok sd -> channels_last x N 1 -> sd_call sd x logits = Ok y ->
  exists co, constraint_call (sd_constraint sd) logits = Ok co /\ Z.of_nat (last (shp logits) 0%nat) = pc_subspace_size (sd_constraint sd) /\ removelast (shp logits) = N /\ channels_last y N 1 /\
    forall ix, inb N ix -> get y (ix ++ [0%Z]) = asum S (fun t => get co (ix ++ [tile_number S t]) * get (roll_flat x (fst (get_roll_and_shift input target))) (cell_at N (map before S) ix t ++ [0%Z])).
Proof.
  intros LS Li Lt Est Hsz Hfit Emk Hx Ecall. destruct (@sd_inv solve svd S input target orders steps pmethod layout method sd N h LS Li Lt Est ltac:(intros i Hi; apply Hsz; exact Hi) Emk) as (pc & Epc & -> & Esz & Lsts & Lb & Hnz & _). cbn [sd_constraint].
  unfold sd_call in Ecall. cbn [sd_constraint] in Ecall. destruct (Z.eqb_spec (Z.of_nat (last (shp logits) 0%nat)) (pc_subspace_size pc)) as [Hlast|]; [|discriminate]. cbn [negb] in Ecall.
  destruct (constraint_call pc logits) as [co|er] eqn:Eco; [|discriminate]. cbn [bind] in Ecall. exists co. split; [reflexivity|]. split; [exact Hlast|]. destruct (sd_extract_patches _ x) as [pa|er] eqn:Epa; [|discriminate]. cbn [bind] in Ecall. unfold sd_extract_patches in Epa. cbn [sd_roll sd_shape sd_patches sd_tiles] in Epa.
  set (xr := roll_flat x (fst (get_roll_and_shift input target))) in *. assert (Hxr : channels_last xr N 1) by exact Hx.
  destruct (@patches_ok xr N S pmethod layout Hxr LS Hsz Hfit) as (pa' & E' & Cpa & Gpa); [intros ->; discriminate|]. rewrite E' in Epa. injection Epa as ->.
  unfold apply_coefficients in Ecall. destruct (list_eq_dec Nat.eq_dec (shp co) (shp pa)) as [Hshp|]; [|discriminate]. destruct (ndim co =? 0)%nat; [discriminate|]. injection Ecall as <-.
  assert (Hco : shp co = removelast (shp logits) ++ [asize S]). { unfold constraint_call in Eco. destruct (ndim logits =? 0)%nat; [discriminate|]. destruct (negb _); [discriminate|]. injection Eco as <-. cbn [shp]. rewrite Lb. reflexivity. }
  assert (Hlg : removelast (shp logits) = N). { unfold channels_last in Cpa. rewrite Hco, Cpa in Hshp. apply app_inj_tail in Hshp. tauto. }
  rewrite Hlg in Hco. split; [exact Hlg|]. split; [unfold channels_last; cbn [shp]; rewrite Hco, removelast_app1; reflexivity|]. intros ix Hix. cbn [get]. rewrite Hco, last_last, removelast_app1.
  rewrite <- (asum_flat S (fun k => get co (ix ++ [k]) * get pa (ix ++ [k]))). apply asum_ext. intros t Ht. rewrite <- (tile_number_flat S t). rewrite Gpa by assumption. reflexivity.
Qed.
(* @prop C46 The derivative layer always runs on logits with the grid's shape and as many channels as the subspace size (given a known patch method and tiles at least half a stencil wide), and refuses logits with another number of channels. *)
Lemma derivative_layer_runs_lem : forall solve svd S input target orders steps h pmethod layout method sd (x logits : arr R) N k, correct_svd svd ->
  length S = length N -> length input = length N -> length target = length N -> steps = repeat h (length N) -> (forall i, (i < length N)%nat -> (0 < nth i N 0 /\ 0 < nth i S 0)%nat) -> pmethod <> POther ->
  (pmethod = PConv -> exists m, tiled_by N (match layout with Some L => L | None => repeat 1%nat (length N) end) m /\ forall i, (i < length N)%nat -> (nth i S 0 / 2 <= nth i m 0)%nat) ->
  make_spatial_derivative solve svd S input target orders steps pmethod layout method = Ok sd -> channels_last x N 1 -> shp logits = N ++ [k] ->
  (Z.of_nat k = pc_subspace_size (sd_constraint sd) -> exists y, sd_call sd x logits = Ok y) /\ (Z.of_nat k <> pc_subspace_size (sd_constraint sd) -> sd_call sd x logits = Err EValue).
Proof.
  intros solve svd S input target orders steps h pmethod layout method sd x logits N k Hsvd LS Li Lt Est Hsz Hm Hfit Emk Hx Hl. destruct (@sd_inv solve svd S input target orders steps pmethod layout method sd N h LS Li Lt Est ltac:(intros i Hi; apply Hsz; exact Hi) Emk) as (pc & Epc & -> & Esz & Lsts & Lb & Hnz & _). cbn [sd_constraint].
  unfold sd_call. cbn [sd_constraint]. rewrite Hl, last_last. split.
  - intros Hk. rewrite Hk, Z.eqb_refl. cbn [negb]. pose proof (@nullspace_length solve svd _ orders method steps 1%Z 1%Z None pc Hsvd Epc ltac:(lia)) as Ln. unfold constraint_call. assert (En : ndim logits = Datatypes.S (length N)) by (unfold ndim; rewrite Hl, app_length; cbn; lia). rewrite En. cbn [Nat.eqb Nat.sub]. rewrite Nat.sub_0_r, Hl, app_nth2, Nat.sub_diag by lia. cbn [nth]. replace (k =? length (pc_nullspace pc))%nat with true by (symmetry; apply Nat.eqb_eq; lia). cbn [negb bind].
    unfold sd_extract_patches. cbn [sd_roll sd_shape sd_patches sd_tiles]. set (xr := roll_flat x (fst (get_roll_and_shift input target))) in *. assert (Hxr : channels_last xr N 1) by exact Hx. destruct (@patches_ok xr N S pmethod layout Hxr LS Hsz Hfit Hm) as (pa & E' & Cpa & _). rewrite E'. cbn [bind]. unfold apply_coefficients. cbn [shp]. unfold channels_last in Cpa. rewrite Cpa, removelast_app1, Lb. destruct (list_eq_dec Nat.eq_dec (N ++ [asize S]) (N ++ [asize S])) as [_|]; [|congruence].
    unfold ndim. cbn [shp]. rewrite app_length. cbn [length]. replace (length N + 1 =? 0)%nat with false by (symmetry; apply Nat.eqb_neq; lia). eauto.
  - intros Hk. replace (Z.of_nat k =? pc_subspace_size pc)%Z with false by (symmetry; apply Z.eqb_neq; exact Hk). reflexivity.
Qed.
(* @prop C46 The learned derivative layer is exact: whatever the logits, the patch method and the tile layout, if the cells of the input around the target point hold the samples (point values or cell averages) of a polynomial of total degree at most sum(derivative_orders), the output at this cell is the exact derivative of the polynomial at the target point. Proved for one-dimensional inputs with any offsets and, in any dimension, for offsets less than one cell apart in the positive direction (the layer's roll is then zero). *)
Lemma derivative_layer_exact_lem : forall solve svd S input target orders steps h pmethod layout method sd (x logits y : arr R) N ix p, correct_solver solve -> correct_svd svd ->
  length S = length N -> length input = length N -> length target = length N -> steps = repeat h (length N) -> (forall i, (i < length N)%nat -> (0 < nth i N 0)%nat /\ (nth i orders 0 + 1 <= nth i S 0)%nat) ->
  (length N = 1%nat \/ forall i, (i < length N)%nat -> (0 <= nth i target 0 - nth i input 0 < 1)%Q) ->
  (pmethod = PConv -> exists m, tiled_by N (match layout with Some L => L | None => repeat 1%nat (length N) end) m /\ forall i, (i < length N)%nat -> (nth i S 0 / 2 <= nth i m 0)%nat) ->
  make_spatial_derivative solve svd S input target orders steps pmethod layout method = Ok sd -> channels_last x N 1 -> sd_call sd x logits = Ok y -> inb N ix ->
  degree_at_most (length N) (fold_right Nat.add 0%nat orders) p -> (forall t, inb S t -> get x (neighbour N S input target ix t ++ [0%Z]) = sample (cell_size method h) p (relative_position S input target h t)) ->
  channels_last y N 1 /\ get y (ix ++ [0%Z]) = poly_at (derivative 0 orders p) (repeat 0 (length N)).
Proof.
  intros solve svd S input target orders steps h pmethod layout method sd x logits y N ix p Hsol Hsvd LS Li Lt Est Hsz Hroll Hfit Emk Hx Ecall Hix Hp Hsamp.
  assert (Hroll' : length N = 1%nat \/ forall i, (i < length N)%nat -> Qround.Qfloor (nth i target 0%Q - nth i input 0%Q) = 0%Z).
  { destruct Hroll as [|H]; [left; assumption | right]. intros i Hi. specialize (H i Hi). pose proof (Qround.Qfloor_le (nth i target 0 - nth i input 0)%Q) as H1. pose proof (Qround.Qlt_floor (nth i target 0 - nth i input 0)%Q) as H2. set (f := Qround.Qfloor _) in *. assert (A1 : (inject_Z f < inject_Z 1)%Q) by (change (inject_Z 1) with 1%Q; Lqa.lra). assert (A2 : (inject_Z 0 < inject_Z (f + 1))%Q) by (change (inject_Z 0) with 0%Q; Lqa.lra). rewrite <- Zlt_Qlt in A1, A2. lia. }
  assert (Hsz' : forall i, (i < length N)%nat -> (0 < nth i N 0 /\ 0 < nth i S 0)%nat) by (intros i Hi; specialize (Hsz i Hi); lia).
  destruct (@sd_value solve svd S input target orders steps h pmethod layout method sd x logits y N LS Li Lt Est Hsz' Hfit Emk Hx Ecall) as (co & Eco & Hlast & Hlg & Cy & Gy).
  destruct (@sd_inv solve svd S input target orders steps pmethod layout method sd N h LS Li Lt Est ltac:(intros i Hi; apply Hsz'; exact Hi) Emk) as (pc & Epc & -> & Esz & Lsts & Lb & Hnz & Hh). cbn [sd_constraint] in *. set (sts := get_stencils S (snd (get_roll_and_shift input target)) steps) in *.
  split; [exact Cy|]. rewrite (Gy ix Hix). 
  destruct (@constrained_weights_exact_lem solve svd sts orders method steps h 1 1 pc logits co ix Hsol Hsvd Epc Hh) as (_ & X).
  { lia. }
  { intros i Hi. rewrite Lsts in Hi. specialize (Hsz i Hi). assert (E : length (nth i sts []) = nth i S 0%nat) by (rewrite <- (nth_map' (@length R) _ [] 0%nat) by (rewrite Lsts; exact Hi); rewrite Esz; reflexivity). rewrite E. lia. }
  { lia. } { exact Eco. } { rewrite Hlg. exact Hix. }
  replace (Z.to_nat (1 + Z.of_nat (fold_right Nat.add 0%nat orders) - 1)) with (fold_right Nat.add 0%nat orders) in X by lia. specialize (X p). rewrite Lsts in X. rewrite <- (X Hp). clear X.
  rewrite Esz. change (fold_right Nat.mul 1%nat S) with (asize S). unfold stencil_sum. rewrite Esz. apply asum_ext. intros t Ht. pose proof (@tflat_range _ _ Ht) as Hr. f_equal.
  - rewrite (@nth_map_seq _ (fun k => get co (ix ++ [Z.of_nat k]))) by (rewrite (tile_number_flat S t); lia). rewrite Z2Nat.id by (rewrite (tile_number_flat S t); lia). reflexivity.
  - rewrite (@rolled_cell x N S input target ix t Hx) by (auto; intros i Hi; apply Hsz; exact Hi). rewrite Hsamp by exact Ht. f_equal. symmetry. unfold sts. apply stencil_positions_lem; [lia | lia | rewrite LS; exact Est | intros i Hi; apply Hsz'; lia | exact Ht].
Qed.

(** ** examples *)
Definition cand_svd (v0 : list R) (A : list (list R)) : list (list R) :=
  let n := length (hd [] A) in
  if (length v0 =? n)%nat && forallb (fun row => if Req_EM_T (dot row v0) 0 then true else false) A then repeat v0 n else repeat (repeat 0 n) n.
Lemma cand_svd_correct v0 : correct_svd (cand_svd v0).
Proof.
  intros A n Hne Hrow. unfold cand_svd. assert (Hn : length (hd [] A) = n) by (destruct A as [|r A]; [congruence | apply Hrow; left; reflexivity]). rewrite Hn. destruct ((length v0 =? n)%nat && _) eqn:E.
  - apply andb_prop in E. destruct E as (E1 & E2). apply Nat.eqb_eq in E1. rewrite forallb_forall in E2. rewrite repeat_length. split; [reflexivity|]. split; [intros v Hv; apply repeat_spec in Hv; subst v; exact E1|]. intros j row Hj Hr. rewrite nth_repeat' by lia. specialize (E2 row Hr). destruct (Req_EM_T (dot row v0) 0) as [E0|]; [|discriminate]. rewrite dot_sum in E0 by (rewrite (Hrow row Hr); exact E1). rewrite (Hrow row Hr) in E0. exact E0.
  - rewrite repeat_length. split; [reflexivity|]. split; [intros v Hv; apply repeat_spec in Hv; subst v; apply repeat_length|]. intros j row Hj Hr. rewrite nth_repeat' by lia. transitivity (rsum n (fun _ => 0)); [|apply rsum_0]. apply rsum_ext. intros k Hk. rewrite nth_repeat' by lia. ring.
Qed.
Lemma row_1d cell st m : row_lhs cell [st] [m] = map (fun x => term1 cell x m) st.
Proof. unfold row_lhs. cbn [combine map fst snd]. apply (list_ext_nth 0); [rewrite kronr_length, map_length; cbn; rewrite map_length; lia|]. intros i Hi. rewrite kronr_length in Hi. cbn [map asize fold_right] in Hi. rewrite map_length, Nat.mul_1_r in Hi.
  pose proof (@kronr_nth [map (fun x => term1 cell x m) st] [Z.of_nat i]) as K. cbn [map length seq inb nth tflat asize fold_right] in K. rewrite map_length in K. rewrite Z.mul_1_r, Z.add_0_r, Nat2Z.id in K. rewrite K by lia. unfold rprod. cbn [map fold_right]. rewrite Rmult_1_r. reflexivity.
Qed.
Lemma exps_1d d e : In e (map (fun m => [m]) (seq 0 (S d))) <-> length e = 1%nat /\ (fold_right Nat.add 0 e <= d)%nat.
Proof.
  rewrite in_map_iff. split; [intros (m & <- & Hm); apply in_seq in Hm; cbn; lia|]. intros (H1 & H2). destruct e as [|m [|? ?]]; cbn [length] in H1; try lia. cbn [fold_right] in H2. exists m. split; [reflexivity | apply in_seq; lia].
Qed.
Lemma rows_1d st orders acc h A b d : polynomial_accuracy_constraints [st] FiniteDifference orders acc (Some h) = Ok (A, b) -> max_deg acc orders = d -> NoDup (map (fun m => map (fun x => x ^ m) st) (seq 0 (S d))) ->
  length A = S d /\ forall row, In row A <-> In row (map (fun m => map (fun x => x ^ m) st) (seq 0 (S d))).
Proof.
  intros E Hd Hn. assert (Em : map (row_lhs None [st]) (map (fun m => [m]) (seq 0 (S d))) = map (fun m => map (fun x => x ^ m) st) (seq 0 (S d))) by (rewrite map_map; apply map_ext; intros m; apply row_1d).
  destruct (@rows_count [st] FiniteDifference orders acc h A b None (map (fun m => [m]) (seq 0 (S d))) E eq_refl) as (H1 & H2); [intros e; rewrite Hd; apply exps_1d | rewrite Em; exact Hn|]. rewrite map_length, seq_length in H1. rewrite Em in H2. split; assumption.
Qed.
Definition ts3 := try_solver [[- / 2; 0; / 2]].
Definition sv3 := cand_svd [1; -2; 1].
Lemma three_pc : exists pc, make_constraint ts3 sv3 [[-1; 0; 1]] [1%nat] FiniteDifference [1] 1 1 None = Ok pc /\ pc_subspace_size pc = 1%Z.
Proof.
  destruct (@three_point_grid [[- / 2; 0; / 2]]) as (g & Eg); [left; reflexivity|].
  assert (X1 : exact_up_to 1 None [[-1; 0; 1]] [1%nat] [- / 2; 0; / 2]) by (apply one_dim_exact; [reflexivity|]; intros [|[|m]] Hm; [| | lia]; unfold rhs_term; cbn; unfold Pos.to_nat; cbn; lra).
  destruct (@constraints_found_if_possible_lem [[-1; 0; 1]] FiniteDifference [1%nat] 1 1 [- / 2; 0; / 2]) as (A & b & EA); try discriminate; try reflexivity; [lra | exact X1|].
  destruct (@rows_1d [-1; 0; 1] [1%nat] 1 1 A b 1 EA eq_refl) as (LA & _). { cbn [map seq]. constructor; [|constructor; [intros [] | constructor]]. intros [H|[]]. cbn in H. injection H. intros. lra. }
  destruct (@default_bias_accepted_lem ts3 sv3 [[-1; 0; 1]] [1%nat] FiniteDifference 1 [1] 1 1 A b g (try_solver_correct _)) as (pc & E & _ & Hs); [intros s [<- | []]; reflexivity | discriminate | exact EA | exact Eg | lia | intros [|i] Hi; cbn in *; lia | rewrite LA; cbn; lia|].
  exists pc. split; [exact E|]. rewrite Hs, LA. reflexivity.
Qed.
(* @ex *)
Lemma default_bias_accepted_ex_lem : exists pc, make_constraint ts3 sv3 [[-1; 0; 1]] [1%nat] FiniteDifference [1] 1 1 None = Ok pc /\ pc_subspace_size pc = 1%Z.
Proof. exact three_pc. Qed.
Lemma call_ok solve svd sts orders method steps acc bacc bias pc inputs N k : correct_svd svd -> make_constraint solve svd sts orders method steps acc bacc bias = Ok pc -> (0 < pc_subspace_size pc)%Z -> shp inputs = N ++ [k] -> Z.of_nat k = pc_subspace_size pc -> exists out, constraint_call pc inputs = Ok out.
Proof.
  intros Hsvd E Hs Hl Hk. pose proof (@nullspace_length solve svd _ _ _ _ _ _ _ pc Hsvd E ltac:(lia)) as Ln. unfold constraint_call, ndim. rewrite Hl, app_length. cbn [length]. replace (length N + 1 =? 0)%nat with false by (symmetry; apply Nat.eqb_neq; lia). replace (length N + 1 - 1)%nat with (length N) by lia. rewrite app_nth2, Nat.sub_diag by lia. cbn [nth]. replace (k =? length (pc_nullspace pc))%nat with true by (symmetry; apply Nat.eqb_eq; lia). cbn [negb]. eauto.
Qed.
(* @ex *)
Lemma constrained_weights_exact_ex_lem : exists pc out, make_constraint ts3 sv3 [[-1; 0; 1]] [1%nat] FiniteDifference [1] 1 1 None = Ok pc /\ constraint_call pc (mkarr [1%nat] (fun _ => 7)) = Ok out /\ exact_up_to 1 None [[-1; 0; 1]] [1%nat] [get out [0%Z]; get out [1%Z]; get out [2%Z]].
Proof.
  destruct three_pc as (pc & E & Hs). destruct (@call_ok _ _ _ _ _ _ _ _ _ pc (mkarr [1%nat] (fun _ => 7)) [] 1 (cand_svd_correct _) E ltac:(lia) eq_refl (eq_sym Hs)) as (out & Eo). exists pc, out. split; [exact E|]. split; [exact Eo|].
  apply (@constrained_weights_exact_lem ts3 sv3 [[-1; 0; 1]] [1%nat] FiniteDifference [1] 1 1 1 pc (mkarr [1%nat] (fun _ => 7)) out [] (try_solver_correct _) (cand_svd_correct _) E); [left; reflexivity | lia | intros [|i] Hi; cbn in *; lia | lia | exact Eo | exact I].
Qed.
(* @ex *)
Lemma zero_input_gives_bias_ex_lem : exists pc out, make_constraint ts3 sv3 [[-1; 0; 1]] [1%nat] FiniteDifference [1] 1 1 None = Ok pc /\ constraint_call pc (mkarr [1%nat] (fun _ => 0)) = Ok out /\ get out [2%Z] = nth 2 (pc_bias pc) 0.
Proof.
  destruct three_pc as (pc & E & Hs). destruct (@call_ok _ _ _ _ _ _ _ _ _ pc (mkarr [1%nat] (fun _ => 0)) [] 1 (cand_svd_correct _) E ltac:(lia) eq_refl (eq_sym Hs)) as (out & Eo). exists pc, out. split; [exact E|]. split; [exact Eo|]. apply (@zero_input_gives_bias_lem pc (mkarr [1%nat] (fun _ => 0)) out [] 2 Eo). reflexivity.
Qed.
(* @ex *)
Lemma layer_refuses_ex_lem : make_constraint ts3 sv3 [[-1; 0; 1]] [1%nat] FiniteDifference [1; 2] 1 1 None = Err EValue.
Proof. apply (@layer_refuses_lem ts3 sv3 [[-1; 0; 1]] [1%nat] FiniteDifference [1; 2] 1 1 None). intros h [<- | [<- | []]]; [exists 2 | exists 1]; cbn; split; auto; lra. Qed.
(** the same system with a supplied bias *)
Lemma three_pc_bias : exists pc, make_constraint ts3 sv3 [[-1; 0; 1]] [1%nat] FiniteDifference [1] 1 1 (Some [0; -1; 1]) = Ok pc /\ pc_subspace_size pc = 1%Z.
Proof.
  assert (X1 : exact_up_to 1 None [[-1; 0; 1]] [1%nat] [0; -1; 1]) by (apply one_dim_exact; [reflexivity|]; intros [|[|m]] Hm; [| | lia]; unfold rhs_term; cbn; unfold Pos.to_nat; cbn; lra).
  destruct (@constraints_found_if_possible_lem [[-1; 0; 1]] FiniteDifference [1%nat] 1 1 [0; -1; 1]) as (A & b & EA); try discriminate; try reflexivity; [lra | exact X1|].
  destruct (@rows_1d [-1; 0; 1] [1%nat] 1 1 A b 1 EA eq_refl) as (LA & _). { cbn [map seq]. constructor; [|constructor; [intros [] | constructor]]. intros [H|[]]. cbn in H. injection H. intros. lra. }
  destruct (proj2 (@constraints_mean_exactness_lem [[-1; 0; 1]] FiniteDifference [1%nat] 1 1 A b [0; -1; 1] EA eq_refl) X1) as (HAb & Hs). destruct (rows_shape _ _ _ _ _ EA) as (Hne & Hrow & Hhd).
  unfold make_constraint. cbn [existsb]. rewrite EA. cbn [bind]. rewrite Hhd. cbn [map length asize fold_right Nat.mul Nat.add Nat.eqb negb]. rewrite norm_zero.
  - destruct (Rlt_dec (1 / 100000000) 0) as [Hlt|]; [exfalso; lra|]. rewrite LA. cbn [Z.of_nat Pos.of_succ_nat Pos.succ Z.sub Z.add Z.opp Z.pos_sub Pos.pred_double Z.eqb]. eexists. split; reflexivity.
  - intros k Hk. rewrite map_length, combine_length in Hk. rewrite (nth_map' _ _ ([], 0) 0) by (rewrite combine_length; lia). rewrite combine_nth by exact HAb. cbn [fst snd]. assert (Hin : In (nth k A []) A) by (apply nth_In; lia). rewrite dot_sum by (rewrite (Hrow _ Hin); reflexivity). rewrite (Hrow _ Hin). specialize (Hs k ltac:(lia)). cbn [length] in Hs. change (asize (map (@length R) [[-1; 0; 1]])) with 3%nat. rewrite Hs. ring.
Qed.
(* @ex *)
Lemma supplied_bias_accuracy_ex_lem : exists pc out, make_constraint ts3 sv3 [[-1; 0; 1]] [1%nat] FiniteDifference [1] 1 1 (Some [0; -1; 1]) = Ok pc /\ constraint_call pc (mkarr [1%nat] (fun _ => 5)) = Ok out /\
  Rabs (stencil_sum [[-1; 0; 1]] (map (fun k => get out ([] ++ [Z.of_nat k])) (seq 0 3)) (fun t => sample None [(3, [1%nat])] (position [[-1; 0; 1]] t)) - poly_at (derivative 0 [1%nat] [(3, [1%nat])]) [0]) <= / 10 ^ 8 * (Rabs 3 + 0).
Proof.
  destruct three_pc_bias as (pc & E & Hs). pose proof (@call_ok _ _ _ _ _ _ _ _ _ pc (mkarr [1%nat] (fun _ => 5)) [] 1 (cand_svd_correct _) E ltac:(lia) eq_refl (eq_sym Hs)) as Eo.
  destruct Eo as (out & Eo). exists pc, out. split; [exact E|]. split; [exact Eo|].
  apply (@supplied_bias_accuracy_lem ts3 sv3 [[-1; 0; 1]] [1%nat] FiniteDifference [1] 1 1 1 [0; -1; 1] pc (mkarr [1%nat] (fun _ => 5)) out [] [(3, [1%nat])] (cand_svd_correct _) E); [left; reflexivity | lia | exact Eo | exact I | repeat constructor].
Qed.
Lemma stencil3 : get_stencils [3%nat] (snd (get_roll_and_shift [1 # 2]%Q [1 # 2]%Q)) [1] = [[-1; 0; 1]].
Proof. unfold get_stencils. cbn. unfold Pos.to_nat, Q2R. cbn. repeat f_equal; lra. Qed.
Lemma three_sd layout : exists sd, make_spatial_derivative ts3 sv3 [3%nat] [1 # 2]%Q [1 # 2]%Q [1%nat] [1] PRoll layout FiniteDifference = Ok sd /\ pc_subspace_size (sd_constraint sd) = 1%Z.
Proof.
  destruct three_pc as (pc & E & Hs). unfold make_spatial_derivative. destruct (get_roll_and_shift [1 # 2]%Q [1 # 2]%Q) as (roll, shift) eqn:Er. replace shift with (snd (get_roll_and_shift [1 # 2]%Q [1 # 2]%Q)) by (rewrite Er; reflexivity). rewrite stencil3, E. cbn [bind]. eexists. split; [reflexivity | exact Hs].
Qed.
(* @ex *)
Lemma derivative_layer_runs_ex_lem : exists sd y, make_spatial_derivative ts3 sv3 [3%nat] [1 # 2]%Q [1 # 2]%Q [1%nat] [1] PRoll None FiniteDifference = Ok sd /\ sd_call sd (mkarr [5%nat; 1%nat] (fun ix => IZR (nth 0 ix 0%Z))) (mkarr [5%nat; 1%nat] (fun ix => IZR (nth 0 ix 0%Z * nth 0 ix 0%Z))) = Ok y.
Proof.
  destruct (three_sd None) as (sd & E & Hs). destruct (@derivative_layer_runs_lem ts3 sv3 [3%nat] [1 # 2]%Q [1 # 2]%Q [1%nat] [1] 1 PRoll None FiniteDifference sd (mkarr [5%nat; 1%nat] (fun ix => IZR (nth 0 ix 0%Z))) (mkarr [5%nat; 1%nat] (fun ix => IZR (nth 0 ix 0%Z * nth 0 ix 0%Z))) [5%nat] 1 (cand_svd_correct _)) as (R1 & _); try reflexivity; try discriminate; [intros [|i] Hi; cbn in *; lia | exact E|].
  destruct (R1 (eq_sym Hs)) as (y & Ey). exists sd, y. auto.
Qed.
(* @ex *)
Lemma derivative_layer_exact_ex_lem : exists sd y, make_spatial_derivative ts3 sv3 [3%nat] [1 # 2]%Q [1 # 2]%Q [1%nat] [1] PRoll None FiniteDifference = Ok sd /\ sd_call sd (mkarr [5%nat; 1%nat] (fun ix => IZR (nth 0 ix 0%Z))) (mkarr [5%nat; 1%nat] (fun ix => IZR (nth 0 ix 0%Z * nth 0 ix 0%Z))) = Ok y /\ get y [2%Z; 0%Z] = 1.
Proof.
  destruct derivative_layer_runs_ex_lem as (sd & y & E & Ey). exists sd, y. split; [exact E|]. split; [exact Ey|].
  destruct (@derivative_layer_exact_lem ts3 sv3 [3%nat] [1 # 2]%Q [1 # 2]%Q [1%nat] [1] 1 PRoll None FiniteDifference sd (mkarr [5%nat; 1%nat] (fun ix => IZR (nth 0 ix 0%Z))) (mkarr [5%nat; 1%nat] (fun ix => IZR (nth 0 ix 0%Z * nth 0 ix 0%Z))) y [5%nat] [2%Z] [(1, [1%nat]); (2, [0%nat])] (try_solver_correct _) (cand_svd_correct _)) as (_ & V); try reflexivity; try discriminate; try assumption.
  - intros [|i] Hi; cbn in *; lia.
  - left. reflexivity.
  - cbn. lia.
  - repeat constructor.
  - intros t Ht. destruct t as [|t [|? ?]]; cbn [inb] in Ht; try tauto. destruct Ht as (Ht & _). assert (C : t = 0%Z \/ t = 1%Z \/ t = 2%Z) by lia. unfold neighbour, relative_position, before, Q2R. replace (Qround.Qfloor (nth 0 [1 # 2]%Q 0%Q - nth 0 [1 # 2]%Q 0%Q)) with 0%Z by reflexivity. destruct C as [-> | [-> | ->]]; cbn; unfold term_at; cbn; lra.
  - cbn in V. rewrite V. unfold poly_at, term_at. cbn. lra.
Qed.

(** ** what is not true *)
Lemma mid_point : exact_up_to 3 None [[- / 2; 0; / 2]] [0%nat] [0; 1; 0].
Proof. apply one_dim_exact; [reflexivity|]. intros [|[|[|[|m]]]] Hm; try lia; unfold rhs_term; cbn; unfold Pos.to_nat; cbn; lra. Qed.
(* @prop C46 The constraint layer does not guarantee its accuracy when the requested order exceeds what the stencil can parametrize: the check for a unique solution only compares the numbers of rows and columns for equality. On the stencil -1/2, 0, 1/2 with order 0 and accuracy order 4 there are four constraints for three coefficients (so the documented guarantee of no more rows than columns fails too); the layer is constructed with a negative subspace size, accepts inputs with two channels, and its outputs violate the constraints, for every singular value decomposition with non-zero rows. *)
Lemma overdetermined_layer_refuted_lem : forall solve svd, correct_svd svd -> (forall A v, In v (svd A) -> exists k, nth k v 0 <> 0) ->
  exists pc A b out, polynomial_accuracy_constraints [[- / 2; 0; / 2]] FiniteDifference [0%nat] 4 (Some 1) = Ok (A, b) /\ length A = 4%nat /\
    make_constraint solve svd [[- / 2; 0; / 2]] [0%nat] FiniteDifference [1] 4 1 (Some [0; 1; 0]) = Ok pc /\ pc_subspace_size pc = (-1)%Z /\
    constraint_call pc (mkarr [2%nat] (fun ix => if (nth 0 ix 0 =? 0)%Z then 1 else 0)) = Ok out /\ ~ exact_up_to 3 None [[- / 2; 0; / 2]] [0%nat] [get out [0%Z]; get out [1%Z]; get out [2%Z]].
Proof.
  intros solve svd Hsvd Hnz. destruct (@constraints_found_if_possible_lem [[- / 2; 0; / 2]] FiniteDifference [0%nat] 4 1 [0; 1; 0]) as (A & b & EA); try discriminate; try reflexivity; [lra | exact mid_point|].
  destruct (@rows_1d [- / 2; 0; / 2] [0%nat] 4 1 A b 3 EA eq_refl) as (LA & _).
  { cbn [map seq]. repeat (constructor; [cbn; intros H; repeat destruct H as [H|H]; try (injection H; intros; lra); exact H|]). constructor. }
  destruct (proj2 (@constraints_mean_exactness_lem [[- / 2; 0; / 2]] FiniteDifference [0%nat] 4 1 A b [0; 1; 0] EA eq_refl) mid_point) as (HAb & Hs). destruct (rows_shape _ _ _ _ _ EA) as (Hne & Hrow & Hhd). change (asize (map (@length R) [[- / 2; 0; / 2]])) with 3%nat in *.
  destruct (Hsvd A 3%nat Hne Hrow) as (LV & LVr & _).
  assert (Emk : make_constraint solve svd [[- / 2; 0; / 2]] [0%nat] FiniteDifference [1] 4 1 (Some [0; 1; 0]) = Ok (mkPC [0; 1; 0] (map (map (fun x => x / 1)) (skipn 1 (svd A))) (-1))).
  { unfold make_constraint. cbn [existsb]. rewrite EA. cbn [bind]. rewrite Hhd. cbn [length Nat.eqb negb]. rewrite norm_zero.
    - destruct (Rlt_dec (1 / 100000000) 0) as [Hlt|]; [exfalso; lra|]. rewrite LA. cbn [Z.of_nat Pos.of_succ_nat Pos.succ Z.sub Z.add Z.opp Z.pos_sub Pos.pred_double Z.eqb]. rewrite LV. f_equal. f_equal. replace (fold_right Rmult 1 (map (fun k : nat => 1 ^ k) [0%nat])) with 1 by (cbn; lra). f_equal. destruct (svd A) as [|v0 [|v1 [|v2 [|? ?]]]]; try discriminate LV. reflexivity.
    - intros k Hk. rewrite map_length, combine_length in Hk. rewrite (nth_map' _ _ ([], 0) 0) by (rewrite combine_length; lia). rewrite combine_nth by exact HAb. cbn [fst snd]. assert (Hin : In (nth k A []) A) by (apply nth_In; lia). rewrite dot_sum by (rewrite (Hrow _ Hin); reflexivity). rewrite (Hrow _ Hin). specialize (Hs k ltac:(lia)). cbn [length] in Hs. rewrite Hs. ring. }
  destruct (svd A) as [|v0 [|v1 [|v2 [|? ?]]]] eqn:Esv; try discriminate LV. cbn [skipn map] in Emk.
  assert (L1 : length v1 = 3%nat) by (apply LVr; right; left; reflexivity). destruct (Hnz A v1) as (k & Hk); [rewrite Esv; right; left; reflexivity|].
  eexists _, A, b, _. split; [exact EA|]. split; [exact LA|]. split; [exact Emk|]. split; [reflexivity|]. split; [reflexivity|].
  destruct v1 as [|a0 [|a1 [|a2 [|? ?]]]]; try discriminate L1. intros X. pose proof (proj1 (@exact_terms 3 None [[- / 2; 0; / 2]] [0%nat] _ eq_refl) X) as M. clear X.
  assert (M' : forall m, (m <= 2)%nat -> rsum 3 (fun j => nth (Z.to_nat j) [0 + a0; 1 + a1; 0 + a2] 0 * nth (Z.to_nat j) [- / 2; 0; / 2] 0 ^ m) = rhs_term m 0).
  { intros m Hm. specialize (M [m] eq_refl ltac:(cbn; lia)). unfold row_rhs in M. cbn [combine map fst snd] in M. unfold rprod in M. cbn [fold_right] in M. rewrite Rmult_1_r in M. rewrite <- M. unfold stencil_sum. cbn [map asum length]. apply rsum_ext. intros j Hj. unfold term_sample, position, rprod, term1. cbn [length seq map combine fst snd nth fold_right tile_number]. rewrite Rmult_1_r. replace (j * Z.of_nat 1 + 0)%Z with j by lia. f_equal.
    assert (C : j = 0%Z \/ j = 1%Z \/ j = 2%Z) by lia. destruct C as [-> | [-> | ->]]; cbn; unfold Pos.to_nat; cbn; lra. }
  pose proof (M' 0%nat ltac:(lia)) as M0. pose proof (M' 1%nat ltac:(lia)) as M1. pose proof (M' 2%nat ltac:(lia)) as M2. unfold rhs_term in M0, M1, M2. cbn in M0, M1, M2. unfold Pos.to_nat in M0, M1, M2. cbn in M0, M1, M2. destruct k as [|[|[|k]]]; cbn in Hk; apply Hk; try lra. destruct k; reflexivity.
Qed.
Lemma stencil21 : get_stencils [2%nat; 1%nat] (snd (get_roll_and_shift [1; 1 # 2]%Q [1 # 2; 1 # 2]%Q)) [1; 1] = [[- / 2; / 2]; [0]].
Proof. unfold get_stencils. cbn. unfold Pos.to_nat, Q2R. cbn. repeat f_equal; lra. Qed.
Lemma half_half : exact_up_to 1 None [[- / 2; / 2]] [0%nat] [/ 2; / 2].
Proof. apply one_dim_exact; [reflexivity|]. intros [|[|m]] Hm; try lia; unfold rhs_term; cbn; unfold Pos.to_nat; cbn; lra. Qed.
Lemma one_one : exact_up_to 0 None [[0]] [0%nat] [1].
Proof. apply one_dim_exact; [reflexivity|]. intros [|m] Hm; try lia; unfold rhs_term; cbn; lra. Qed.
Definition ts21 := try_solver [[/ 2; / 2]; [1]].
Definition sv21 := cand_svd [1; -1].
Lemma grid21 : exists g, polynomial_accuracy_coefficients ts21 [[- / 2; / 2]; [0]] FiniteDifference [0%nat; 0%nat] (Some 1%Z) (Some 1) = Ok g.
Proof.
  unfold polynomial_accuracy_coefficients. cbn [length Nat.eqb negb combine mapM]. change (used_slice 2 0 (Some 1%Z)) with (0%Z, 2%Z). change (used_slice 1 0 (Some 1%Z)) with (0%Z, 1%Z). cbv iota. change (py_slice [- / 2; / 2] 0 2) with [- / 2; / 2]. change (py_slice [0] 0 1) with [0].
  destruct (@high_order_ok [[/ 2; / 2]; [1]] [- / 2; / 2] FiniteDifference 0%nat 1 [/ 2; / 2]) as (c & E); try discriminate; try reflexivity; [cbn; lia | lra | left; reflexivity | exact half_half|].
  destruct (@high_order_ok [[/ 2; / 2]; [1]] [0] FiniteDifference 0%nat 1 [1]) as (c1 & E1); try discriminate; try reflexivity; [cbn; lia | lra | right; left; reflexivity | exact one_one|].
  fold ts21 in E, E1. rewrite E. cbn [bind]. rewrite E1. cbn [bind map snd kronecker_product fold_left fst].
  destruct (@solver_1d ts21 [- / 2; / 2] FiniteDifference 0%nat 1 None c (try_solver_correct _) eq_refl E) as (Lc & _). destruct (@solver_1d ts21 [0] FiniteDifference 0%nat 1 None c1 (try_solver_correct _) eq_refl E1) as (Lc1 & _). destruct c as [|x [|y [|? ?]]]; try discriminate Lc. destruct c1 as [|z [|? ?]]; try discriminate Lc1. cbn. eexists. reflexivity.
Qed.
Lemma sd21 : exists sd, make_spatial_derivative ts21 sv21 [2%nat; 1%nat] [1; 1 # 2]%Q [1 # 2; 1 # 2]%Q [0%nat; 0%nat] [1; 1] PRoll None FiniteDifference = Ok sd /\ pc_subspace_size (sd_constraint sd) = 1%Z.
Proof.
  destruct grid21 as (g & Eg).
  assert (X1 : exact_up_to 0 None [[- / 2; / 2]; [0]] [0%nat; 0%nat] [1; 0]).
  { apply exact_terms; [reflexivity|]. intros e He Hd. destruct e as [|m [|n [|? ?]]]; cbn [length] in He; try lia. cbn [fold_right] in Hd. assert (m = 0%nat) by lia. assert (n = 0%nat) by lia. subst. unfold row_rhs, stencil_sum, rprod, rhs_term, term_sample, position. cbn. unfold Pos.to_nat. cbn. lra. }
  destruct (@constraints_found_if_possible_lem [[- / 2; / 2]; [0]] FiniteDifference [0%nat; 0%nat] 1 1 [1; 0]) as (A & b & EA); try discriminate; try reflexivity; [lra | exact X1|].
  destruct (@rows_count [[- / 2; / 2]; [0]] FiniteDifference [0%nat; 0%nat] 1 1 A b None [[0%nat; 0%nat]] EA eq_refl) as (LA & _).
  { intros e. split; [intros [<- | []]; cbn; lia|]. intros (H1 & H2). destruct e as [|m [|n [|? ?]]]; cbn [length] in H1; try lia. cbn in H2. left. f_equal; [lia|]. f_equal. lia. } { constructor; [intros [] | constructor]. }
  destruct (@default_bias_accepted_lem ts21 sv21 [[- / 2; / 2]; [0]] [0%nat; 0%nat] FiniteDifference 1 [1; 1] 1 1 A b g (try_solver_correct _)) as (pc & E & _ & Hs); [intros s [<- | [<- | []]]; reflexivity | discriminate | exact EA | exact Eg | lia | intros [|[|i]] Hi; cbn in *; lia | rewrite LA; cbn; lia|].
  unfold make_spatial_derivative. destruct (get_roll_and_shift [1; 1 # 2]%Q [1 # 2; 1 # 2]%Q) as (roll, shift) eqn:Er. replace shift with (snd (get_roll_and_shift [1; 1 # 2]%Q [1 # 2; 1 # 2]%Q)) by (rewrite Er; reflexivity). rewrite stencil21, E. cbn [bind]. eexists. split; [reflexivity|]. cbn [sd_constraint]. rewrite Hs, LA. reflexivity.
Qed.
Definition x21 : arr R := mkarr [2%nat; 2%nat; 1%nat] (fun ix => if (nth 1 ix 0 =? 1)%Z then 1 else 0).
(* @prop C46 In two or more dimensions the derivative layer is not exact when the offsets require a roll: the input is rolled without an axis, that is, flattened. Interpolating from offset (1, 1/2) to (1/2, 1/2) on a 2 x 2 grid, the cells next to the target hold a constant 1 but the output is 0, because the layer reads the column before. *)
Lemma roll_without_axis_refuted_lem : exists solve svd sd y, correct_solver solve /\ correct_svd svd /\
  make_spatial_derivative solve svd [2%nat; 1%nat] [1; 1 # 2]%Q [1 # 2; 1 # 2]%Q [0%nat; 0%nat] [1; 1] PRoll None FiniteDifference = Ok sd /\
  channels_last x21 [2%nat; 2%nat] 1 /\ sd_call sd x21 (mkarr [2%nat; 2%nat; 1%nat] (fun _ => 0)) = Ok y /\
  (forall t, inb [2%nat; 1%nat] t -> get x21 (neighbour [2%nat; 2%nat] [2%nat; 1%nat] [1; 1 # 2]%Q [1 # 2; 1 # 2]%Q [1%Z; 1%Z] t ++ [0%Z]) = sample None [(1, [0%nat; 0%nat])] (relative_position [2%nat; 1%nat] [1; 1 # 2]%Q [1 # 2; 1 # 2]%Q 1 t)) /\
  get y [1%Z; 1%Z; 0%Z] = 0 /\ poly_at (derivative 0 [0%nat; 0%nat] [(1, [0%nat; 0%nat])]) [0; 0] = 1.
Proof.
  destruct sd21 as (sd & E & Hs). exists ts21, sv21, sd.
  destruct (@derivative_layer_runs_lem ts21 sv21 [2%nat; 1%nat] [1; 1 # 2]%Q [1 # 2; 1 # 2]%Q [0%nat; 0%nat] [1; 1] 1 PRoll None FiniteDifference sd x21 (mkarr [2%nat; 2%nat; 1%nat] (fun _ => 0)) [2%nat; 2%nat] 1 (cand_svd_correct _)) as (R1 & _); try reflexivity; try discriminate; [intros [|[|i]] Hi; cbn in *; lia | exact E|].
  destruct (R1 (eq_sym Hs)) as (y & Ey). exists y. split; [apply try_solver_correct|]. split; [apply cand_svd_correct|]. split; [exact E|]. split; [reflexivity|]. split; [exact Ey|]. split.
  { intros t Ht. destruct t as [|t [|u [|? ?]]]; cbn [inb] in Ht; try tauto. destruct Ht as (Ht & Hu & _). assert (u = 0%Z) by lia. subst u. unfold sample, poly_at, term_at, x21, neighbour. assert (C : t = 0%Z \/ t = 1%Z) by lia. destruct C as [-> | ->]; cbn; lra. }
  split; [|cbn; unfold poly_at, term_at; cbn; lra].
  destruct (@sd_value ts21 sv21 [2%nat; 1%nat] [1; 1 # 2]%Q [1 # 2; 1 # 2]%Q [0%nat; 0%nat] [1; 1] 1 PRoll None FiniteDifference sd x21 (mkarr [2%nat; 2%nat; 1%nat] (fun _ => 0)) y [2%nat; 2%nat]) as (co & _ & _ & _ & _ & Gy); try reflexivity; try assumption; [intros [|[|i]] Hi; cbn in *; lia | discriminate|].
  specialize (Gy [1%Z; 1%Z] ltac:(cbn; lia)). cbn [app] in Gy. rewrite Gy. transitivity (asum [2%nat; 1%nat] (fun _ => 0)); [|apply asum_0]. apply asum_ext. intros t Ht. destruct t as [|t [|u [|? ?]]]; cbn [inb] in Ht; try tauto. destruct Ht as (Ht & Hu & _). assert (u = 0%Z) by lia. subst u. apply Rmult_eq_0_compat_l. unfold x21, roll_flat, cell_at. cbn [get shp]. assert (C : t = 0%Z \/ t = 1%Z) by lia. destruct C as [-> | ->]; reflexivity.
Qed.
