(** * Learned derivatives are polynomially exact (C46) *)
From Verif Require Import Prelude NdArr ArrayUtils_model ArrayUtilsProps Tiling_model SpecTile TilingProofs TilingProps Stencil_model SpecStencil StencilProofs.
Set Implicit Arguments.
Local Open Scope R_scope.

Lemma ssum_ext sts c F G : (forall t, inb (map (@length R) sts) t -> F t = G t) -> stencil_sum sts c F = stencil_sum sts c G.
Proof. intros H. unfold stencil_sum. apply asum_ext. intros t Ht. rewrite H by exact Ht. reflexivity. Qed.
Lemma ssum_poly sts c cell p : stencil_sum sts c (fun t => sample cell p (position sts t)) = fold_right Rplus 0 (map (fun ae => fst ae * stencil_sum sts c (fun t => term_sample cell (snd ae) (position sts t))) p).
Proof.
  transitivity (stencil_sum sts c (fun t => fold_right Rplus 0 (map (fun ae => fst ae * term_sample cell (snd ae) (position sts t)) p))); [apply ssum_ext; intros t _; apply sample_terms|].
  induction p as [|ae p IH]; cbn [map fold_right].
  - unfold stencil_sum. transitivity (asum (map (@length R) sts) (fun _ => 0)); [apply asum_ext; intros t _; ring | apply asum_0].
  - rewrite <- IH. unfold stencil_sum. rewrite <- asum_scal, <- asum_plus. apply asum_ext. intros t _. ring.
Qed.
Lemma deriv_poly n orders p : length orders = n -> Forall (fun ae : R * list nat => length (snd ae) = n) p -> poly_at (derivative 0 orders p) (repeat 0 n) = fold_right Rplus 0 (map (fun ae => fst ae * row_rhs orders (snd ae)) p).
Proof.
  intros Hn Hp. rewrite derivative_map. unfold poly_at. rewrite map_map. induction p as [|(a, e) p IH]; [reflexivity|]. inversion_clear Hp as [|x l H1 H2]. cbn [map fold_right fst snd] in *. rewrite IH by exact H2. f_equal. rewrite <- Hn. rewrite term_deriv_0 by lia. reflexivity.
Qed.
Lemma exact_terms d cell sts orders c : length orders = length sts ->
  (exact_up_to d cell sts orders c <-> forall e, length e = length sts -> (fold_right Nat.add 0 e <= d)%nat -> stencil_sum sts c (fun t => term_sample cell e (position sts t)) = row_rhs orders e).
Proof.
  intros HL. split.
  - intros H e He Hd. specialize (H [(1, e)]). rewrite ssum_poly, (@deriv_poly (length sts)) in H; [| exact HL | repeat constructor; exact He].
    cbn [map fold_right fst snd] in H. rewrite !Rmult_1_l, !Rplus_0_r in H. apply H. repeat constructor; assumption.
  - intros H p Hp. rewrite ssum_poly, (@deriv_poly (length sts)); [| exact HL | eapply Forall_impl; [|exact Hp]; intros ae (H1 & _); exact H1].
    unfold degree_at_most in Hp. induction p as [|(a, e) p IH]; [reflexivity|]. inversion_clear Hp as [|x l (H1 & H1') H2]. cbn [map fold_right fst snd] in *. rewrite IH by exact H2. rewrite H by assumption. reflexivity.
Qed.
Lemma solves_exact sts method orders acc gs A b cell c : polynomial_accuracy_constraints sts method orders acc gs = Ok (A, b) -> cell_of_method method gs = Some cell -> length c = asize (map (@length R) sts) ->
  (solves A b c <-> exact_up_to (max_deg acc orders) cell sts orders c).
Proof.
  intros E Ec Hc. destruct (constraints_inv _ _ _ _ _ E) as (HL & Ha & Hs & cell' & Ec' & HAb & HR). rewrite Ec in Ec'. injection Ec' as <-. rewrite exact_terms by auto. unfold solves. split.
  - intros (_ & H) e He Hd. destruct (proj2 (HR (row_lhs cell sts e, row_rhs orders e))) as (k & Hk & E1 & E2); [eauto|]. specialize (H k Hk). cbn [fst snd] in E1, E2. rewrite E1, E2, Hc, row_dot in H by exact He. exact H.
  - intros H. split; [exact HAb|]. intros k Hk. destruct (proj1 (HR (nth k A [], nth k b 0))) as (e & He & Hd & Er); [exists k; auto|]. injection Er as -> ->. rewrite Hc, row_dot by exact He. apply H; assumption.
Qed.
Definition cell_size (method : fd_method) (h : R) : option R := match method with FiniteVolume => Some h | _ => None end.
Lemma cell_ok method h cell : cell_of_method method (Some h) = Some cell -> cell = cell_size method h.
Proof. unfold cell_of_method, cell_size. destruct method; [congruence | | discriminate]. destruct (Req_EM_T h 0); congruence. Qed.

(* @prop C46 The cell average used for finite volumes is the true average: for every antiderivative F of x^m, it is the difference of F at the ends of the cell divided by its length. *)
Lemma cell_average_is_integral_lem : forall (h x : R) (m : nat) (F : R -> R), h <> 0 -> (forall y, derivable_pt_lim F y (y ^ m)) -> average1 h x m = (F (x + h / 2) - F (x - h / 2)) / h.
Proof.
  intros h x m F Hh HF. set (G := fun y => / INR (m + 1) * y ^ (m + 1)). assert (Hm : INR (m + 1) <> 0) by (apply not_0_INR; lia).
  assert (HG : forall y, derivable_pt_lim (fun y => / INR (m + 1) * y ^ (m + 1)) y (y ^ m)).
  { intros y. replace (y ^ m) with (/ INR (m + 1) * (INR (m + 1) * y ^ pred (m + 1))) by (replace (pred (m + 1)) with m by lia; field; exact Hm). apply (derivable_pt_lim_scal (fun y => y ^ (m + 1))). apply derivable_pt_lim_pow. }
  set (D := fun y => F y - G y). assert (HD : forall y, derivable_pt_lim D y 0). { intros y. replace 0 with (y ^ m - y ^ m) by ring. apply (derivable_pt_lim_minus F G); [apply HF | apply HG]. }
  assert (pr : derivable D) by (intros y; exists 0; apply HD).
  assert (Hc : constant D) by (apply (null_derivative_1 D pr); intros y; apply derive_pt_eq_0; apply HD).
  specialize (Hc (x + h / 2) (x - h / 2)). unfold D in Hc. replace (F (x + h / 2) - F (x - h / 2)) with (G (x + h / 2) - G (x - h / 2)) by lra. unfold G, average1. field. auto.
Qed.
(* @ex *)
Lemma cell_average_is_integral_ex_lem : average1 2 3 1 = ((fun y => / 2 * y ^ 2) (3 + 2 / 2) - (fun y => / 2 * y ^ 2) (3 - 2 / 2)) / 2.
Proof.
  apply (@cell_average_is_integral_lem 2 3 1 (fun y => / 2 * y ^ 2)); [lra|]. intros y. replace (y ^ 1) with (/ 2 * (INR 2 * y ^ pred 2)) by (cbn; lra). apply (derivable_pt_lim_scal (fun y => y ^ 2)). apply derivable_pt_lim_pow.
Qed.
(* @prop C46 Exponents: _exponents_up_to_degree enumerates exactly the exponent tuples of the given length whose sum is at most the degree. *)
Lemma exponents_complete_lem : forall deg n e, In e (exponents_up_to_degree deg n) <-> length e = n /\ (fold_right Nat.add 0 e <= deg)%nat.
Proof. intros deg n e. apply exps_in. Qed.
(* @ex *)
Lemma exponents_complete_ex_lem : exponents_up_to_degree 2 2 = [[0; 0]; [0; 1]; [0; 2]; [1; 0]; [1; 1]; [2; 0]]%nat.
Proof. reflexivity. Qed.
(* @prop C46 polynomial_accuracy_constraints is sound and complete: a coefficient vector solves the returned linear system if and only if it differentiates every polynomial of total degree at most accuracy_order + sum(derivative_orders) - 1 exactly at the origin, from point values (finite differences) or cell averages (finite volumes), in any number of dimensions and for any stencils. *)
Lemma constraints_mean_exactness_lem : forall stencils method orders acc h A b c, polynomial_accuracy_constraints stencils method orders acc (Some h) = Ok (A, b) -> length c = fold_right Nat.mul 1%nat (map (@length R) stencils) ->
  (solves A b c <-> exact_up_to (Z.to_nat (acc + Z.of_nat (fold_right Nat.add 0%nat orders) - 1)) (cell_size method h) stencils orders c).
Proof.
  intros sts method orders acc h A b c E Hc. destruct (constraints_inv _ _ _ _ _ E) as (_ & _ & _ & cell & Ec & _). rewrite <- (@cell_ok _ _ _ Ec). exact (@solves_exact sts method orders acc (Some h) A b cell c E Ec Hc).
Qed.
(* @prop C46 If any coefficient vector has the requested exactness, polynomial_accuracy_constraints succeeds: "conflicting constraints" is reported only when no such vector exists. *)
Lemma constraints_found_if_possible_lem : forall stencils method orders acc h c, stencils <> [] -> length stencils = length orders -> (1 <= acc)%Z -> h <> 0 -> method <> OtherMethod ->
  length c = fold_right Nat.mul 1%nat (map (@length R) stencils) -> exact_up_to (Z.to_nat (acc + Z.of_nat (fold_right Nat.add 0%nat orders) - 1)) (cell_size method h) stencils orders c ->
  exists A b, polynomial_accuracy_constraints stencils method orders acc (Some h) = Ok (A, b).
Proof.
  intros sts method orders acc h c Hs HL Ha Hh Hm Hc Hx. assert (Ec : cell_of_method method (Some h) = Some (cell_size method h)) by (unfold cell_of_method, cell_size; destruct method; [reflexivity | destruct (Req_EM_T h 0); [contradiction | reflexivity] | congruence]).
  unfold polynomial_accuracy_constraints. rewrite HL, Nat.eqb_refl. cbn [negb]. replace (acc <? 1)%Z with false by (symmetry; apply Z.ltb_ge; lia). rewrite exact_terms in Hx by auto. rewrite <- HL.
  destruct (@dict_fold_ok (list nat) (monomial_row method (Some h) sts orders) (fun x => (row_lhs (cell_size method h) sts x, row_rhs orders x)) (exponents_up_to_degree (Z.to_nat (acc + Z.of_nat (fold_right Nat.add 0%nat orders) - 1)) (length sts)) []) as (d & Ed).
  - intros x Hin. apply exps_in in Hin. apply monomial_row_ok; [exact Ec | exact Hs | apply Hin].
  - intros x kv Hin [[] | (y & Hy & <-)]. cbn [fst snd]. intros Erow. apply exps_in in Hin, Hy. rewrite <- (Hx x), <- (Hx y) by tauto. rewrite <- !row_dot by tauto. rewrite Erow. reflexivity.
  - rewrite Ed. cbn [bind]. eauto.
Qed.

Lemma sum_ge_nth l i : (i < length l)%nat -> (nth i l 0 <= fold_right Nat.add 0 l)%nat.
Proof. revert i. induction l as [|x l IH]; intros [|i] Hi; cbn in *; try lia. specialize (IH i). lia. Qed.
Lemma sum_le e d : length e = length d -> (forall j, (j < length e)%nat -> (nth j d 0 <= nth j e 0)%nat) -> (fold_right Nat.add 0 d <= fold_right Nat.add 0 e)%nat.
Proof.
  revert d. induction e as [|x e IH]; intros [|y d] HL H; cbn [length] in *; try lia. cbn [fold_right]. pose proof (H 0%nat ltac:(lia)) as H0. cbn [nth] in H0. specialize (IH d ltac:(lia) ltac:(intros j Hj; apply (H (S j)); lia)). lia.
Qed.
Lemma sum_split e d : length e = length d -> forall i, (i < length e)%nat -> (forall j, (j < length e)%nat -> j <> i -> (nth j d 0 <= nth j e 0)%nat) -> (fold_right Nat.add 0 d + nth i e 0 <= fold_right Nat.add 0 e + nth i d 0)%nat.
Proof.
  revert d. induction e as [|x e IH]; intros [|y d] HL i Hi H; cbn [length] in *; try lia. destruct i as [|i].
  - cbn [nth fold_right]. assert (Hs : (fold_right Nat.add 0 d <= fold_right Nat.add 0 e)%nat).
    { assert (HL' : length e = length d) by lia. clear - HL' H. assert (H' : forall j, (j < length e)%nat -> (nth j d 0 <= nth j e 0)%nat) by (intros j Hj; apply (H (S j)); lia). clear H. apply sum_le; assumption. }
    lia.
  - cbn [nth fold_right]. specialize (IH d ltac:(lia) i ltac:(lia) ltac:(intros j Hj Hne; apply (H (S j)); lia)). pose proof (H 0%nat ltac:(lia) ltac:(lia)) as H0. cbn [nth] in H0. lia.
Qed.
(** the product of one-dimensional moments is right even beyond the degree of the factors *)
Lemma moment_product (e d : list nat) (k : nat -> nat) (acc : Z) (M : nat -> R) : length e = length d -> (forall i, (i < length d)%nat -> (Z.of_nat (nth i d 0%nat) + acc <= Z.of_nat (k i))%Z) -> (1 <= acc)%Z ->
  (Z.of_nat (fold_right Nat.add 0%nat e) <= acc + Z.of_nat (fold_right Nat.add 0%nat d) - 1)%Z -> (forall i, (i < length d)%nat -> (nth i e 0 < k i)%nat -> M i = rhs_term (nth i e 0%nat) (nth i d 0%nat)) ->
  rprod (map M (seq 0 (length d))) = row_rhs d e.
Proof.
  intros HL Hk Ha Hdeg HM. unfold row_rhs. rewrite (combine_seq_map e d 0%nat 0%nat) by auto. rewrite map_map, HL. cbn [fst snd].
  destruct (Exists_dec (fun i => (k i <= nth i e 0)%nat) (seq 0 (length d))) as [Hex|Hno]; [intros i; apply le_dec| |].
  - apply Exists_exists in Hex. destruct Hex as (i & Hi & Hbig). apply in_seq in Hi.
    assert (Hj : exists j, (j < length d)%nat /\ j <> i /\ (nth j e 0 < nth j d 0)%nat).
    { destruct (Exists_dec (fun j => j <> i /\ (nth j e 0 < nth j d 0)%nat) (seq 0 (length d))) as [Hex|Hno].
      - intros j. destruct (Nat.eq_dec j i); [right; tauto|]. destruct (lt_dec (nth j e 0%nat) (nth j d 0%nat)); [left | right]; tauto.
      - apply Exists_exists in Hex. destruct Hex as (j & Hj & H1 & H2). apply in_seq in Hj. exists j. repeat split; [lia | exact H1 | exact H2].
      - exfalso. pose proof (@sum_split e d HL i ltac:(lia)) as S. specialize (Hk i ltac:(lia)).
        assert (H : forall j, (j < length e)%nat -> j <> i -> (nth j d 0 <= nth j e 0)%nat).
        { intros j Hj Hne. destruct (le_lt_dec (nth j d 0%nat) (nth j e 0%nat)) as [|Hlt]; [assumption|]. exfalso. apply Hno. apply Exists_exists. exists j. split; [apply in_seq; lia | split; assumption]. }
        specialize (S H). lia. }
    destruct Hj as (j & Hjn & Hji & Hjlt). transitivity 0; [|symmetry]; apply rprod_zero; apply in_map_iff; exists j; (split; [|apply in_seq; lia]).
    + rewrite HM; [unfold rhs_term; replace (nth j e 0 =? nth j d 0)%nat with false by (symmetry; apply Nat.eqb_neq; lia); reflexivity | exact Hjn | specialize (Hk j Hjn); lia].
    + unfold rhs_term. replace (nth j e 0 =? nth j d 0)%nat with false by (symmetry; apply Nat.eqb_neq; lia). reflexivity.
  - apply rprod_ext. intros i Hi. apply in_seq in Hi. apply HM; [lia|]. destruct (le_lt_dec (k i) (nth i e 0%nat)) as [H|H]; [|exact H]. exfalso. apply Hno. apply Exists_exists. exists i. split; [apply in_seq; lia | exact H].
Qed.
Lemma coefs_exact solve sts method orders accb h grid cell acc : correct_solver solve -> cell_of_method method (Some h) = Some cell ->
  polynomial_accuracy_coefficients solve sts method orders accb (Some h) = Ok grid -> (1 <= acc)%Z ->
  (forall i, (i < length sts)%nat -> match accb with Some a => (acc <= a /\ Z.of_nat (nth i orders 0%nat) + a <= Z.of_nat (length (nth i sts [])))%Z | None => (Z.of_nat (nth i orders 0%nat) + acc <= Z.of_nat (length (nth i sts [])))%Z end) ->
  shp grid = map (@length R) sts /\ length sts = length orders /\ exact_up_to (max_deg acc orders) cell sts orders (ravel grid).
Proof.
  intros Hsol Ec E Ha Hfit. unfold polynomial_accuracy_coefficients in E. destruct (Nat.eqb_spec (length sts) (length orders)) as [HL|]; [|discriminate]. cbn [negb] in E.
  match type of E with bind (mapM ?F ?l) _ = _ => destruct (mapM F l) as [axes|er] eqn:Eax; [|discriminate]; destruct (@mapM_nth_ok _ _ F l axes ([], 0%nat) (0%nat, 0%nat, []) Eax) as (LA & HA) end.
  rewrite combine_length, <- HL, Nat.min_id in LA, HA. cbn [bind] in E. destruct (kronecker_product (map snd axes)) as [values|er] eqn:Ek; [|discriminate]. cbn [bind] in E.
  assert (Haxes : axes <> []) by (intros ->; cbn in Ek; discriminate). rewrite kronecker_ok in Ek by (destruct axes; [congruence | cbn; discriminate]). injection Ek as <-.
  set (starts := map (fun a => Z.of_nat (fst (fst a))) axes) in E. set (sizes := map (fun a => snd (fst a)) axes) in E. destruct (length (kronr (map snd axes)) =? asize sizes)%nat eqn:Elen; [|discriminate]. cbn [negb] in E. injection E as <-. cbn [shp]. split; [reflexivity|]. split; [exact HL|].
  set (ax := fun i => nth i axes (0%nat, 0%nat, [])) in *.
  set (g := fun i j => if ((0 <=? j - Z.of_nat (fst (fst (ax i)))) && (j - Z.of_nat (fst (fst (ax i))) <? Z.of_nat (snd (fst (ax i)))))%Z%bool then nth (Z.to_nat (j - Z.of_nat (fst (fst (ax i))))) (snd (ax i)) 0 else 0).
  assert (HAX : forall i, (i < length sts)%nat -> length (snd (ax i)) = snd (fst (ax i)) /\ (Z.of_nat (nth i orders 0%nat) + acc <= Z.of_nat (snd (fst (ax i))))%Z /\
      forall m, (m < snd (fst (ax i)))%nat -> rsum (length (nth i sts [])) (fun j => g i j * term1 cell (nth (Z.to_nat j) (nth i sts []) 0) m) = rhs_term m (nth i orders 0%nat)).
  { intros i Hi. specialize (HA i Hi). rewrite combine_nth in HA by exact HL. cbv beta iota in HA. destruct (used_slice (length (nth i sts [])) (nth i orders 0%nat) accb) as (start, stop) eqn:Eu.
    destruct (high_order_coefficients_1d solve _ method _ _) as [c|er] eqn:Ec1; [|discriminate]. cbn [bind] in HA. injection HA as HA. specialize (Hfit i Hi).
    assert (Hf : fits (length (nth i sts [])) (nth i orders 0%nat) accb) by (unfold fits; destruct accb; [lia | exact I]).
    destruct (@coefs_axis solve Hsol (nth i sts []) method (nth i orders 0%nat) accb h cell start stop c Ec Hf Eu Ec1) as (C1 & C2 & C3).
    assert (Eax_i : ax i = (py_slice_bound (length (nth i sts [])) start, length (py_slice (nth i sts []) start stop), c)) by (unfold ax; symmetry; exact HA).
    unfold g. rewrite !Eax_i. cbn [fst snd]. split; [exact C1|]. split; [destruct accb; lia | exact C3]. }
  assert (Esz : map (@length R) (map snd axes) = sizes).
  { unfold sizes. rewrite map_map. apply (list_ext_nth 0%nat); [rewrite !map_length; reflexivity|]. intros i Hi. rewrite map_length in Hi. rewrite !(nth_map' _ _ (0%nat, 0%nat, []) 0%nat) by exact Hi. apply HAX. lia. }
  rewrite exact_terms by auto. intros e He Hdeg. set (grid := mkarr _ _).
  assert (Hget : forall t, inb (map (@length R) sts) t -> get grid t = rprod (map (fun i => g i (nth i t 0%Z)) (seq 0 (length sts)))).
  { intros t Ht. pose proof (inb_length _ _ Ht) as Lt. rewrite map_length in Lt. unfold grid. cbn [get]. set (rel := add_ix t (map Z.opp starts)).
    assert (Lst : length (map Z.opp starts) = length sts) by (unfold starts; rewrite !map_length; exact LA). assert (Lrel : length rel = length sts) by (unfold rel; rewrite add_ix_length; lia).
    assert (Hrel : forall i, (i < length sts)%nat -> nth i rel 0%Z = (nth i t 0 - Z.of_nat (fst (fst (ax i))))%Z).
    { intros i Hi. unfold rel. rewrite add_ix_nth by lia. rewrite (nth_map' _ _ 0%Z 0%Z) by (rewrite map_length in Lst; lia). unfold starts. rewrite (nth_map' _ _ (0%nat, 0%nat, []) 0%Z) by lia. fold (ax i). lia. }
    assert (Lsz : length sizes = length sts) by (unfold sizes; rewrite map_length; exact LA).
    assert (Hsz : forall i, (i < length sts)%nat -> nth i sizes 0%nat = snd (fst (ax i))) by (intros i Hi; unfold sizes; rewrite (nth_map' _ _ (0%nat, 0%nat, []) 0%nat) by lia; reflexivity).
    destruct (forallb _ (combine rel sizes)) eqn:Eb.
    - rewrite forallb_forall in Eb. assert (Hin : forall i, (i < length sts)%nat -> ((0 <=? nth i rel 0%Z) && (nth i rel 0%Z <? Z.of_nat (nth i sizes 0%nat)))%Z%bool = true).
      { intros i Hi. apply (Eb (nth i rel 0%Z, nth i sizes 0%nat)). rewrite <- combine_nth by lia. apply nth_In. rewrite combine_length. lia. }
      assert (Hirel : inb sizes rel). { apply inb_intro; [lia|]. intros i Hi. specialize (Hin i ltac:(lia)). apply andb_prop in Hin. destruct Hin as (A1 & A2). apply Z.leb_le in A1. apply Z.ltb_lt in A2. lia. }
      rewrite <- Esz in Hirel |- *. rewrite kronr_nth by exact Hirel. rewrite map_length, LA. apply rprod_ext. intros i Hi. apply in_seq in Hi. specialize (Hin i ltac:(lia)). unfold g. rewrite <- Hrel by lia. rewrite <- Hsz by lia. rewrite Hin. rewrite (nth_map' _ _ (0%nat, 0%nat, []) []) by lia. reflexivity.
    - symmetry. apply rprod_zero. assert (Hbad : exists i, (i < length sts)%nat /\ ((0 <=? nth i rel 0%Z) && (nth i rel 0%Z <? Z.of_nat (nth i sizes 0%nat)))%Z%bool = false).
      { destruct (Exists_dec (fun i => ((0 <=? nth i rel 0%Z) && (nth i rel 0%Z <? Z.of_nat (nth i sizes 0%nat)))%Z%bool = false) (seq 0 (length sts))) as [Hex|Hno]; [intros i; apply bool_dec | |].
        - apply Exists_exists in Hex. destruct Hex as (i & Hi & Hb). apply in_seq in Hi. exists i. split; [lia | exact Hb].
        - exfalso. rewrite <- not_true_iff_false in Eb. apply Eb. apply forallb_forall. intros (r, s) Hrs. destruct (In_nth _ _ (0%Z, 0%nat) Hrs) as (i & Hi & Ei). rewrite combine_length in Hi. rewrite combine_nth in Ei by lia. injection Ei as <- <-. cbn [fst snd].
          apply not_false_is_true. intros Hb. apply Hno. apply Exists_exists. exists i. split; [apply in_seq; lia | exact Hb]. }
      destruct Hbad as (i & Hi & Hb). apply in_map_iff. exists i. split; [|apply in_seq; lia]. unfold g. rewrite <- Hrel, <- Hsz by exact Hi. rewrite Hb. reflexivity. }
  unfold stencil_sum. rewrite (@asum_ext _ _ (fun t => rprod (map (fun i => g i (nth i t 0%Z) * term1 cell (nth (Z.to_nat (nth i t 0%Z)) (nth i sts []) 0) (nth i e 0%nat)) (seq 0 (length (map (@length R) sts)))))).
  2:{ intros t Ht. rewrite (tile_number_flat (map (@length R) sts) t). pose proof (@ravel_nth grid t Ht) as Er. change (shp grid) with (map (@length R) sts) in Er. rewrite Er, Hget by exact Ht. unfold term_sample, position. rewrite (combine_seq_map e _ 0%nat 0) by (rewrite map_length, seq_length; auto). rewrite map_map, He, map_length. rewrite <- rprod_mult. apply rprod_ext.
      intros i Hi. apply in_seq in Hi. cbn [fst snd]. rewrite (@nth_map_seq _ (fun i : nat => nth (Z.to_nat (nth i t 0%Z)) (nth i sts []) 0)) by lia. reflexivity. }
  rewrite (asum_prod (map (@length R) sts) (fun i j => g i j * term1 cell (nth (Z.to_nat j) (nth i sts []) 0) (nth i e 0%nat))). rewrite map_length, HL.
  apply (@moment_product e orders (fun i => snd (fst (ax i))) acc); [lia | intros i Hi; apply HAX; lia | exact Ha | unfold max_deg in Hdeg; lia |]. intros i Hi Hlt. rewrite (nth_map' _ _ [] 0%nat) by lia. apply HAX; [lia | exact Hlt].
Qed.
(* @prop C46 The default coefficients of polynomial_accuracy_coefficients (products of one-dimensional stencils cut from the middle) differentiate every polynomial up to the requested total degree exactly, in any number of dimensions, whenever every stencil has at least derivative order + accuracy order cells; this includes polynomials whose degree in one variable exceeds what the one-dimensional stencil handles. *)
Lemma default_coefficients_exact_lem : forall solve stencils method orders accuracy h grid acc, correct_solver solve ->
  polynomial_accuracy_coefficients solve stencils method orders accuracy (Some h) = Ok grid -> (1 <= acc)%Z -> stencils <> [] ->
  (forall i, (i < length stencils)%nat -> match accuracy with Some a => (acc <= a /\ Z.of_nat (nth i orders 0%nat) + a <= Z.of_nat (length (nth i stencils [])))%Z | None => (Z.of_nat (nth i orders 0%nat) + acc <= Z.of_nat (length (nth i stencils [])))%Z end) ->
  shp grid = map (@length R) stencils /\ exact_up_to (Z.to_nat (acc + Z.of_nat (fold_right Nat.add 0%nat orders) - 1)) (cell_size method h) stencils orders (ravel grid).
Proof.
  intros solve sts method orders accb h grid acc Hsol E Ha Hne Hfit.
  assert (Hc : exists cell, cell_of_method method (Some h) = Some cell).
  { pose proof E as E'. unfold polynomial_accuracy_coefficients in E'. destruct (Nat.eqb_spec (length sts) (length orders)) as [HL|]; [|discriminate]. cbn [negb] in E'. destruct sts as [|s sts]; [congruence|]. destruct orders as [|o orders]; [discriminate|]. cbn [combine mapM] in E'.
    destruct (used_slice (length s) o accb) as (start, stop). destruct (high_order_coefficients_1d solve (py_slice s start stop) method o (Some h)) as [c|er] eqn:E1; [|discriminate]. unfold high_order_coefficients_1d in E1. destruct (polynomial_accuracy_constraints _ _ _ _ _) as [(A, b)|er] eqn:E2; [|discriminate].
    destruct (constraints_inv _ _ _ _ _ E2) as (_ & _ & _ & cell & Hc & _). eauto. }
  destruct Hc as (cell & Hc). destruct (@coefs_exact solve sts method orders accb h grid cell acc Hsol Hc E Ha Hfit) as (S1 & _ & X1). rewrite <- (@cell_ok _ _ _ Hc). split; [exact S1 | exact X1].
Qed.

(** ** a solver for examples: tries a list of candidates *)
Definition checks (A : list (list R)) (b c : list R) : bool :=
  forallb (fun row => (length row =? length c)%nat) A && (length A =? length b)%nat && forallb (fun rb => if Req_EM_T (dot (fst rb) c) (snd rb) then true else false) (combine A b).
Definition try_solver (cs : list (list R)) (A : list (list R)) (b : list R) : result (list R) := match find (checks A b) cs with Some c => Ok c | None => Err EValue end.
Lemma dot_sum a : forall b, length b = length a -> dot a b = rsum (length a) (fun k => nth (Z.to_nat k) a 0 * nth (Z.to_nat k) b 0).
Proof.
  induction a as [|x a IH]; intros [|y b] H; cbn [length] in H; try discriminate; [reflexivity|]. cbn [length]. rewrite rsum_S_l. cbn [Z.to_nat nth]. unfold dot. cbn [combine map fold_right fst snd]. f_equal. etransitivity; [apply IH; lia|].
  apply rsum_ext. intros i Hi. replace (Z.to_nat (i + 1)) with (S (Z.to_nat i)) by lia. reflexivity.
Qed.
Lemma checks_ok A b c : checks A b c = true <-> (forall row, In row A -> length row = length c) /\ solves A b c.
Proof.
  unfold checks. rewrite !andb_true_iff, !forallb_forall, Nat.eqb_eq. split.
  - intros ((H1 & H2) & H3). assert (H1' : forall row, In row A -> length row = length c) by (intros row Hr; apply Nat.eqb_eq; apply H1; exact Hr). split; [exact H1'|]. split; [exact H2|]. intros k Hk. specialize (H3 (nth k A [], nth k b 0)). rewrite <- combine_nth in H3 by exact H2. assert (Hlt : (k < length (combine A b))%nat) by (rewrite combine_length; lia). specialize (H3 (nth_In _ _ Hlt)). rewrite combine_nth in H3 by exact H2. cbn [fst snd] in H3.
    destruct (Req_EM_T (dot (nth k A []) c) (nth k b 0)) as [E|]; [|discriminate]. rewrite <- E, dot_sum by (symmetry; apply H1', nth_In; exact Hk). rewrite (H1' (nth k A [])) by (apply nth_In; exact Hk). reflexivity.
  - intros (H1 & H2 & H3). split; [split; [intros row Hr; apply Nat.eqb_eq; auto | exact H2]|]. intros rb Hrb. destruct (In_nth _ _ ([], 0) Hrb) as (k & Hk & Ek). rewrite combine_length in Hk. rewrite combine_nth in Ek by exact H2. subst rb. cbn [fst snd]. rewrite dot_sum by (symmetry; apply H1, nth_In; lia). rewrite (H1 (nth k A [])) by (apply nth_In; lia). rewrite (H3 k ltac:(lia)). destruct (Req_EM_T _ _); congruence.
Qed.
Lemma try_solver_correct cs : correct_solver (try_solver cs).
Proof. intros A b c. unfold try_solver. destruct (find (checks A b) cs) as [c'|] eqn:E; [|discriminate]. intros [= <-]. apply find_some in E. apply checks_ok. apply E. Qed.
Lemma try_solver_ok cs A b c : In c cs -> (forall row, In row A -> length row = length c) -> solves A b c -> exists c', try_solver cs A b = Ok c'.
Proof.
  intros Hin H1 H2. unfold try_solver. destruct (find (checks A b) cs) as [c'|] eqn:E; [eauto|]. exfalso. pose proof (find_none _ _ E c Hin) as H. rewrite (proj2 (checks_ok A b c)) in H; [discriminate | auto].
Qed.
Lemma zsum_repeat n : fold_right Nat.add 0%nat (repeat 0%nat n) = 0%nat. Proof. induction n as [|n IH]; cbn; auto. Qed.
Lemma rows_shape sts method orders acc gs A b : polynomial_accuracy_constraints sts method orders acc gs = Ok (A, b) -> A <> [] /\ (forall row, In row A -> length row = asize (map (@length R) sts)) /\ length (hd [] A) = asize (map (@length R) sts).
Proof.
  intros E. destruct (constraints_inv _ _ _ _ _ E) as (HL & Ha & Hs & cell & Ec & HAb & HR).
  assert (Hne : A <> []). { destruct (proj2 (HR (row_lhs cell sts (repeat 0%nat (length sts)), row_rhs orders (repeat 0%nat (length sts))))) as (k & Hk & _); [exists (repeat 0%nat (length sts)); rewrite repeat_length, zsum_repeat; repeat split; lia|]. intros ->. cbn in Hk. lia. }
  assert (Hrow : forall row, In row A -> length row = asize (map (@length R) sts)).
  { intros row Hin. destruct (In_nth _ _ [] Hin) as (k & Hk & Ek). destruct (proj1 (HR (row, nth k b 0))) as (e & He & _ & Er); [exists k; auto|]. injection Er as -> _. apply row_length. exact He. }
  split; [exact Hne|]. split; [exact Hrow|]. destruct A as [|r A]; [congruence|]. apply Hrow. left. reflexivity.
Qed.
Lemma one_dim_exact st d k c : length c = length st -> (forall m, (m <= d)%nat -> rsum (length st) (fun j => nth (Z.to_nat j) c 0 * nth (Z.to_nat j) st 0 ^ m) = rhs_term m k) -> exact_up_to d None [st] [k] c.
Proof.
  intros HL H. apply exact_terms; [reflexivity|]. intros e He Hd. destruct e as [|m [|? ?]]; cbn [length] in He; try lia. cbn [fold_right] in Hd. unfold row_rhs. cbn [combine map fst snd]. unfold rprod. cbn [fold_right]. rewrite Rmult_1_r, <- (H m) by lia. unfold stencil_sum. cbn [map asum]. apply rsum_ext. intros j Hj.
  unfold term_sample, position, rprod, term1. cbn [length seq map combine fst snd nth fold_right tile_number]. rewrite Rmult_1_r. f_equal. f_equal. lia.
Qed.
Lemma high_order_ok cs st method k h c : (0 < length st - k)%nat -> st <> [] -> h <> 0 -> method <> OtherMethod -> In c cs -> length c = length st -> exact_up_to (length st - 1) (cell_size method h) [st] [k] c -> exists c', high_order_coefficients_1d (try_solver cs) st method k (Some h) = Ok c'.
Proof.
  intros Hk Hne Hh Hm Hin Hc Hx. unfold high_order_coefficients_1d. set (acc := (Z.of_nat (length st) - Z.of_nat k)%Z).
  assert (Ed : Z.to_nat (acc + Z.of_nat (fold_right Nat.add 0%nat [k]) - 1) = (length st - 1)%nat) by (unfold acc; cbn [fold_right]; lia).
  destruct (@constraints_found_if_possible_lem [st] method [k] acc h c) as (A & b & E); try assumption; [discriminate | reflexivity | unfold acc; lia | cbn; lia | rewrite Ed; exact Hx|]. rewrite E. cbn [bind fst snd]. destruct (rows_shape _ _ _ _ _ E) as (_ & Hrow & _). change (asize (map (@length R) [st])) with (length st * 1)%nat in Hrow.
  apply try_solver_ok with c; [exact Hin | intros row Hr; rewrite (Hrow row Hr); lia|]. apply (@constraints_mean_exactness_lem [st] method [k] acc h A b c E); [cbn; lia | rewrite Ed; exact Hx].
Qed.
(** moments of the two-point and three-point stencils *)
Lemma two_point : exact_up_to 1 None [[- / 2; / 2]] [1%nat] [-1; 1].
Proof. apply one_dim_exact; [reflexivity|]. intros [|[|m]] Hm; [| | lia]; unfold rhs_term; cbn; unfold Pos.to_nat; cbn; lra. Qed.
Lemma three_point : exact_up_to 2 None [[-1; 0; 1]] [1%nat] [- / 2; 0; / 2].
Proof. apply one_dim_exact; [reflexivity|]. intros [|[|[|m]]] Hm; [| | | lia]; unfold rhs_term; cbn; unfold Pos.to_nat; cbn; lra. Qed.
(* @ex *)
Lemma constraints_mean_exactness_ex_lem : exists A b, polynomial_accuracy_constraints [[- / 2; / 2]] FiniteDifference [1%nat] 1 (Some 1) = Ok (A, b) /\ solves A b [-1; 1] /\ ~ solves A b [1; 1].
Proof.
  destruct (@constraints_found_if_possible_lem [[- / 2; / 2]] FiniteDifference [1%nat] 1 1 [-1; 1]) as (A & b & E); try discriminate; try reflexivity; [lra | exact two_point|]. exists A, b. split; [exact E|]. split.
  - apply (@constraints_mean_exactness_lem _ _ _ _ _ A b [-1; 1] E); [reflexivity | exact two_point].
  - intros H. apply (@constraints_mean_exactness_lem _ _ _ _ _ A b [1; 1] E) in H; [|reflexivity]. specialize (H [(1, [0%nat])]). cbn in H. assert (D : degree_at_most 1 1 [(1, [0%nat])]) by (repeat constructor). specialize (H D). unfold term_at, stencil_sum in H. cbn in H. unfold Pos.to_nat in H. cbn in H. lra.
Qed.
(* @ex *)
Lemma constraints_found_if_possible_ex_lem : exists A b, polynomial_accuracy_constraints [[-1; 0; 1]] FiniteDifference [1%nat] 2 (Some 1) = Ok (A, b).
Proof. apply constraints_found_if_possible_lem with [- / 2; 0; / 2]; try discriminate; try reflexivity; [lra | exact three_point]. Qed.
Lemma three_point_grid cs : In [- / 2; 0; / 2] cs -> exists g, polynomial_accuracy_coefficients (try_solver cs) [[-1; 0; 1]] FiniteDifference [1%nat] (Some 1%Z) (Some 1) = Ok g.
Proof.
  intros Hin. unfold polynomial_accuracy_coefficients. cbn [length Nat.eqb negb combine mapM]. change (used_slice 3 1 (Some 1%Z)) with (0%Z, 3%Z). cbv iota. change (py_slice [-1; 0; 1] 0 3) with [-1; 0; 1].
  destruct (@high_order_ok cs [-1; 0; 1] FiniteDifference 1%nat 1 [- / 2; 0; / 2]) as (c & E); try discriminate; try reflexivity; [cbn; lia | lra | exact Hin | exact three_point|]. rewrite E. cbn [bind map snd kronecker_product fold_left].
  assert (Lc : length c = 3%nat). { unfold high_order_coefficients_1d in E. destruct (polynomial_accuracy_constraints _ _ _ _ _) as [(A, b)|er] eqn:EA; [|discriminate]. cbn [bind fst snd] in E. destruct (@try_solver_correct cs A b c E) as (H1 & _). destruct (rows_shape _ _ _ _ _ EA) as (Hne & Hrow & _). destruct A as [|r A]; [congruence|]. rewrite <- (H1 r) by (left; reflexivity). rewrite (Hrow r) by (left; reflexivity). reflexivity. }
  cbn [fst snd length]. rewrite Lc. cbn [asize fold_right Nat.mul Nat.add Nat.eqb negb]. eexists. reflexivity.
Qed.
(* @ex *)
Lemma default_coefficients_exact_ex_lem : exists g, polynomial_accuracy_coefficients (try_solver [[- / 2; 0; / 2]]) [[-1; 0; 1]] FiniteDifference [1%nat] (Some 1%Z) (Some 1) = Ok g /\ exact_up_to 1 None [[-1; 0; 1]] [1%nat] (ravel g).
Proof.
  destruct (@three_point_grid [[- / 2; 0; / 2]]) as (g & E); [left; reflexivity|]. exists g. split; [exact E|].
  apply (@default_coefficients_exact_lem (try_solver [[- / 2; 0; / 2]]) [[-1; 0; 1]] FiniteDifference [1%nat] (Some 1%Z) 1 g 1 (try_solver_correct _) E); [lia | discriminate|]. intros [|i] Hi; cbn in *; lia.
Qed.
(** the rows of the system are distinct *)
Lemma dict_add_nodup d k v d' : NoDup (map fst d) -> dict_add d k v = Ok d' -> NoDup (map fst d').
Proof.
  intros Hd. unfold dict_add. destruct (dict_get d k) as [v'|] eqn:E; [destruct (Req_EM_T v' v); [intros [= <-]; exact Hd | discriminate]|]. intros [= <-]. rewrite map_app. cbn [map fst].
  apply NoDup_rev in Hd. rewrite <- (rev_involutive (map fst d ++ [k])). apply NoDup_rev. rewrite rev_app_distr. cbn [rev app]. constructor; [|exact Hd]. rewrite <- in_rev. intros H. apply in_map_iff in H. destruct H as ((k', v') & Ek & Hin). cbn in Ek. subst k'. exact (@dict_get_none d k E v' Hin).
Qed.
Lemma insert_nodup kv l : ~ In (fst kv) (map fst l) -> NoDup (map fst l) -> NoDup (map fst (insert_item kv l)).
Proof.
  induction l as [|y l IH]; intros Hn Hd; cbn [insert_item]; [constructor; [exact Hn | exact Hd]|]. destruct (lex_lt (fst kv) (fst y)); [constructor; assumption|]. cbn [map] in *. inversion_clear Hd as [|a b H1 H2]. constructor; [|apply IH; [intros H; apply Hn; right; exact H | exact H2]].
  intros H. apply in_map_iff in H. destruct H as (z & Ez & Hz). apply insert_in in Hz. destruct Hz as [-> | Hz]; [apply Hn; left; auto|]. apply H1. rewrite <- Ez. apply in_map. exact Hz.
Qed.
Lemma sort_nodup l : NoDup (map fst l) -> NoDup (map fst (sort_items l)).
Proof.
  unfold sort_items. induction l as [|y l IH]; intros Hd; [exact Hd|]. cbn [fold_right]. cbn [map] in Hd. inversion_clear Hd as [|a b H1 H2]. apply insert_nodup; [|apply IH; exact H2]. intros H. apply in_map_iff in H. destruct H as (z & Ez & Hz). apply (proj1 (sort_in l z)) in Hz. apply H1. rewrite <- Ez. apply in_map. exact Hz.
Qed.
Lemma rows_nodup sts method orders acc gs A b : polynomial_accuracy_constraints sts method orders acc gs = Ok (A, b) -> NoDup A.
Proof.
  unfold polynomial_accuracy_constraints. destruct (negb _); [discriminate|]. destruct (acc <? 1)%Z; [discriminate|]. match goal with |- context [bind (foldM ?F ?a ?l)] => destruct (foldM F a l) as [d|er] eqn:E; [|discriminate]; set (L := l) in E end. cbn [bind]. intros [= <- <-]. apply sort_nodup.
  assert (H : forall d0, NoDup (map fst d0) -> foldM (fun d exponents => let* row := monomial_row method gs sts orders exponents in dict_add d (fst row) (snd row)) d0 L = Ok d -> NoDup (map fst d)).
  { clear E. induction L as [|x l IH]; intros d0 Hd E; cbn [foldM] in E; [injection E as <-; exact Hd|]. destruct (monomial_row method gs sts orders x) as [r|er]; [|discriminate]. cbn [bind] in E. destruct (dict_add d0 (fst r) (snd r)) as [d1|er] eqn:Ed; [|discriminate]. cbn [bind] in E. apply (IH d1); [eapply dict_add_nodup; eauto | exact E]. }
  apply (H [] (NoDup_nil _) E).
Qed.
(** number of rows, from any list of exponents that covers all of them *)
Lemma rows_count sts method orders acc h A b cell es : polynomial_accuracy_constraints sts method orders acc (Some h) = Ok (A, b) -> cell_of_method method (Some h) = Some cell ->
  (forall e, In e es <-> length e = length sts /\ (fold_right Nat.add 0 e <= max_deg acc orders)%nat) -> NoDup (map (row_lhs cell sts) es) -> length A = length es /\ forall row, In row A <-> In row (map (row_lhs cell sts) es).
Proof.
  intros E Ec Hes Hnd. destruct (constraints_inv _ _ _ _ _ E) as (HL & Ha & Hs & cell' & Ec' & HAb & HR). rewrite Ec in Ec'. injection Ec' as <-.
  assert (HI : forall row, In row A <-> In row (map (row_lhs cell sts) es)).
  { intros row. split.
    - intros Hin. destruct (In_nth _ _ [] Hin) as (k & Hk & Ek). destruct (proj1 (HR (row, nth k b 0))) as (e & He & Hd & Er); [exists k; auto|]. injection Er as -> _. apply in_map. apply Hes. auto.
    - intros Hin. apply in_map_iff in Hin. destruct Hin as (e & <- & He). apply Hes in He. destruct (proj2 (HR (row_lhs cell sts e, row_rhs orders e))) as (k & Hk & E1 & _); [exists e; tauto|]. cbn [fst] in E1. rewrite <- E1. apply nth_In. exact Hk. }
  split; [|exact HI]. rewrite <- (map_length (row_lhs cell sts) es). apply Nat.le_antisymm; apply NoDup_incl_length; [exact (rows_nodup _ _ _ _ _ E) | intros r Hr; apply HI; exact Hr | exact Hnd | intros r Hr; apply HI; exact Hr].
Qed.
