(** * Interpolation stencils: construction of the layers (lemmas for C71) *)
From Verif Require Import Prelude NdArr ArrayUtils_model ArrayUtilsProps Tiling_model SpecTile TilingProofs TilingProps Stencil_model SpecStencil StencilProofs StencilProps StencilLayerProps SpecLInt.
Set Implicit Arguments.
Lemma mapM_map_comp {X Y W} (f : Y -> result W) (g : X -> Y) l : mapM f (map g l) = mapM (fun x => f (g x)) l.
Proof. induction l as [|x l IH]; [reflexivity|]. cbn [map mapM]. rewrite IH. reflexivity. Qed.
Lemma nth_firstn_lt {A} (l : list A) : forall n k d, (k < n)%nat -> nth k (firstn n l) d = nth k l d.
Proof. induction l as [|x l IH]; intros [|n] [|k] d H; try lia; cbn; auto. apply IH. lia. Qed.
Local Open Scope R_scope.

Lemma one_dim_cell cell st d k c : length c = length st -> (exact_up_to d cell [st] [k] c <-> forall m, (m <= d)%nat -> rsum (length st) (fun j => nth (Z.to_nat j) c 0 * term1 cell (nth (Z.to_nat j) st 0) m) = rhs_term m k).
Proof.
  intros HL. rewrite exact_terms by reflexivity.
  assert (E : forall m, stencil_sum [st] c (fun t => term_sample cell [m] (position [st] t)) = rsum (length st) (fun j => nth (Z.to_nat j) c 0 * term1 cell (nth (Z.to_nat j) st 0) m)).
  { intros m. unfold stencil_sum. cbn [map asum]. apply rsum_ext. intros j Hj. unfold term_sample, position, rprod. cbn [length seq map combine fst snd nth fold_right tile_number]. rewrite Rmult_1_r. f_equal. f_equal. lia. }
  split.
  - intros H m Hm. rewrite <- E. rewrite (H [m]) by (cbn; lia). unfold row_rhs, rprod. cbn. ring.
  - intros H e He Hd. destruct e as [|m [|? ?]]; cbn [length] in He; try lia. cbn [fold_right] in Hd. rewrite E, H by lia. unfold row_rhs, rprod. cbn. ring.
Qed.
Lemma avg0 h x : h <> 0 -> average1 h x 0 = 1. Proof. intros H. unfold average1. cbn. field. exact H. Qed.
Lemma avg1 h x : h <> 0 -> average1 h x 1 = x. Proof. intros H. unfold average1. cbn. field. exact H. Qed.
(** the default coefficients are products of the one-dimensional ones *)
Definition axis_value (st c : list R) (start : Z) (j : Z) : R :=
  let rel := (j - Z.of_nat (py_slice_bound (length st) start))%Z in
  if ((0 <=? rel) && (rel <? Z.of_nat (length c)))%Z%bool then nth (Z.to_nat rel) c 0 else 0.
Lemma coefs_forward solve sts method orders accb gs (c : nat -> list R) : length sts = length orders -> sts <> [] ->
  (forall i, (i < length sts)%nat -> let u := used_slice (length (nth i sts [])) (nth i orders 0%nat) accb in
     high_order_coefficients_1d solve (py_slice (nth i sts []) (fst u) (snd u)) method (nth i orders 0%nat) gs = Ok (c i) /\ length (c i) = length (py_slice (nth i sts []) (fst u) (snd u))) ->
  exists grid, polynomial_accuracy_coefficients solve sts method orders accb gs = Ok grid /\ shp grid = map (@length R) sts /\
    forall t, inb (map (@length R) sts) t -> get grid t = rprod (map (fun i => axis_value (nth i sts []) (c i) (fst (used_slice (length (nth i sts [])) (nth i orders 0%nat) accb)) (nth i t 0%Z)) (seq 0 (length sts))).
Proof.
  intros HL Hne H. unfold polynomial_accuracy_coefficients. rewrite HL, Nat.eqb_refl. cbn [negb].
  set (n := length orders) in *. set (ax := fun i => (py_slice_bound (length (nth i sts [])) (fst (used_slice (length (nth i sts [])) (nth i orders 0%nat) accb)), length (c i), c i)).
  match goal with |- context [mapM ?F ?l] => assert (EM : mapM F l = Ok (map ax (seq 0 n))) end.
  { rewrite (combine_seq_map sts orders [] 0%nat) by auto. rewrite HL. fold n. rewrite mapM_map_comp. apply mapM_all_ok. intros i Hi. apply in_seq in Hi. destruct (H i ltac:(lia)) as (H1 & H2). cbv zeta in H1, H2. cbv beta iota.
    unfold ax. destruct (used_slice _ _ _) as (start, stop). cbn [fst snd] in *. rewrite H1. cbn [bind]. rewrite H2. reflexivity. }
  rewrite EM. cbn [bind]. rewrite !map_map. cbn [fst snd ax]. fold n.
  assert (Hn : (0 < n)%nat) by (destruct sts; [congruence | cbn in HL; lia]).
  rewrite kronecker_ok by (destruct n; [lia | discriminate]). cbn [bind]. set (L := map c (seq 0 n)). set (sizes := map (fun x => length (c x)) (seq 0 n)).
  assert (Esz : map (@length R) L = sizes) by (unfold L, sizes; rewrite map_map; reflexivity). rewrite kronr_length, Esz, Nat.eqb_refl. cbn [negb].
  eexists; split; [reflexivity|]. split; [reflexivity|]. intros t Ht. cbn [get]. pose proof (inb_length _ _ Ht) as Lt. rewrite map_length, HL in Lt.
  set (starts := map _ (seq 0 n)). set (rel := add_ix t starts).
  assert (Lst : length starts = n) by (unfold starts; rewrite map_length, seq_length; reflexivity).
  assert (Lrel : length rel = n) by (unfold rel; rewrite add_ix_length; rewrite ?map_length; lia).
  assert (Lsz : length sizes = n) by (unfold sizes; rewrite map_length, seq_length; reflexivity).
  assert (Hrel : forall i, (i < n)%nat -> nth i rel 0%Z = (nth i t 0 - Z.of_nat (fst (fst (ax i))))%Z).
  { intros i Hi. unfold rel. rewrite add_ix_nth by (rewrite ?map_length; lia). unfold starts. rewrite (@nth_map_seq _ (fun x => - Z.of_nat (py_slice_bound (length (nth x sts [])) (fst (used_slice (length (nth x sts [])) (nth x orders 0%nat) accb))))%Z) by lia. unfold ax. cbn [fst]. lia. }
  assert (Hsz : forall i, (i < n)%nat -> nth i sizes 0%nat = length (c i)) by (intros i Hi; unfold sizes; rewrite (@nth_map_seq _ (fun x => length (c x))) by lia; reflexivity).
  destruct (forallb _ (combine rel sizes)) eqn:Eb.
  - rewrite forallb_forall in Eb. assert (Hin : forall i, (i < n)%nat -> ((0 <=? nth i rel 0%Z) && (nth i rel 0%Z <? Z.of_nat (nth i sizes 0%nat)))%Z%bool = true).
    { intros i Hi. apply (Eb (nth i rel 0%Z, nth i sizes 0%nat)). rewrite <- combine_nth by lia. apply nth_In. rewrite combine_length. lia. }
    assert (Hirel : inb sizes rel). { apply inb_intro; [lia|]. intros i Hi. specialize (Hin i ltac:(lia)). apply andb_prop in Hin. destruct Hin as (A1 & A2). apply Z.leb_le in A1. apply Z.ltb_lt in A2. lia. }
    rewrite <- Esz in Hirel |- *. rewrite kronr_nth by exact Hirel. unfold L. rewrite map_length, seq_length. apply rprod_ext. intros i Hi. apply in_seq in Hi. specialize (Hin i ltac:(lia)). rewrite Hsz, Hrel in Hin by lia. cbn [ax fst snd] in Hin. unfold axis_value. rewrite Hin. rewrite (@nth_map_seq _ c) by lia. rewrite Hrel by lia. reflexivity.
  - symmetry. apply rprod_zero. assert (Hbad : exists i, (i < n)%nat /\ ((0 <=? nth i rel 0%Z) && (nth i rel 0%Z <? Z.of_nat (nth i sizes 0%nat)))%Z%bool = false).
    { destruct (Exists_dec (fun i => ((0 <=? nth i rel 0%Z) && (nth i rel 0%Z <? Z.of_nat (nth i sizes 0%nat)))%Z%bool = false) (seq 0 n)) as [Hex|Hno]; [intros i; apply bool_dec | |].
      - apply Exists_exists in Hex. destruct Hex as (i & Hi & Hb). apply in_seq in Hi. exists i. split; [lia | exact Hb].
      - exfalso. rewrite <- not_true_iff_false in Eb. apply Eb. apply forallb_forall. intros (r, z) Hrs. destruct (In_nth _ _ (0%Z, 0%nat) Hrs) as (i & Hi & Ei). rewrite combine_length in Hi. rewrite combine_nth in Ei by lia. injection Ei as <- <-. cbn [fst snd].
        apply not_false_is_true. intros Hb. apply Hno. apply Exists_exists. exists i. split; [apply in_seq; lia | exact Hb]. }
    destruct Hbad as (i & Hi & Hb). apply in_map_iff. exists i. split; [|apply in_seq; lia]. rewrite Hsz, Hrel in Hb by exact Hi. cbn [ax fst snd] in Hb. unfold axis_value. rewrite Hb. reflexivity.
Qed.
(** ** stencils of an interpolation *)
Definition istencil (size : nat) (d h : R) : list R := map (fun s => (- d + IZR s) * h) (zrange (- Z.of_nat (before size)) (- Z.of_nat (before size) + Z.of_nat size)).
Lemma istencil_length size d h : length (istencil size d h) = size.
Proof. unfold istencil. rewrite map_length, zrange_len. lia. Qed.
Lemma istencil_nth size d h k : (k < size)%nat -> nth k (istencil size d h) 0 = (- d + IZR (Z.of_nat k - Z.of_nat (before size))) * h.
Proof. intros Hk. unfold istencil. rewrite (nth_map' _ _ 0%Z 0) by (rewrite zrange_len; lia). rewrite zrange_nth by lia. do 3 f_equal. lia. Qed.
Lemma before_bounds k : (0 < k)%nat -> (2 * before k + 1 = k \/ 2 * before k + 2 = k)%nat.
Proof. intros H. unfold before. pose proof (Nat.div_mod (k - 1) 2 ltac:(lia)). pose proof (Nat.mod_upper_bound (k - 1) 2 ltac:(lia)). lia. Qed.
Lemma used_middle size : (0 < size)%nat -> used_slice size 0 (Some 1%Z) = (Z.of_nat (before size), Z.of_nat (before size) + (if Nat.even size then 2 else 1))%Z.
Proof.
  intros H. unfold used_slice. replace (Z.of_nat size - Z.of_nat 0 - 1)%Z with (Z.of_nat size - 1)%Z by lia. rewrite before_z by exact H. f_equal.
  destruct (before_bounds H) as [E|E].
  - replace (Nat.even size) with false; [lia|]. symmetry. rewrite <- E. rewrite Nat.add_1_r, Nat.even_succ. apply Nat.odd_mul. 
  - replace (Nat.even size) with true; [lia|]. symmetry. apply Nat.even_spec. exists (before size + 1)%nat. lia.
Qed.
Lemma used_cells size d h : (0 < size)%nat -> let u := used_slice size 0 (Some 1%Z) in
  py_slice (istencil size d h) (fst u) (snd u) = if Nat.even size then [- d * h; - d * h + h] else [- d * h].
Proof.
  intros H. cbv zeta. rewrite used_middle by exact H. cbn [fst snd]. unfold py_slice. rewrite istencil_length. pose proof (before_bounds H) as HB.
  assert (Hb : (Z.of_nat (before size) + (if Nat.even size then 2 else 1) <= Z.of_nat size)%Z).
  { destruct (Nat.even size) eqn:Ee; [|lia]. apply Nat.even_spec in Ee. destruct Ee as (q & Eq). lia. }
  rewrite !py_bound by (destruct (Nat.even size); lia). rewrite Nat2Z.id. set (k := (Z.to_nat (Z.of_nat (before size) + _) - before size)%nat). assert (Ek : k = (if Nat.even size then 2 else 1)%nat) by (unfold k; destruct (Nat.even size); lia).
  assert (N : forall j, (j < k)%nat -> nth j (firstn k (skipn (before size) (istencil size d h))) 0 = - d * h + IZR (Z.of_nat j) * h).
  { intros j Hj. rewrite nth_firstn_lt by exact Hj. rewrite nth_skipn'. rewrite istencil_nth by (destruct (Nat.even size); lia). replace (Z.of_nat (before size + j) - Z.of_nat (before size))%Z with (Z.of_nat j) by lia. ring. }
  assert (LL : length (firstn k (skipn (before size) (istencil size d h))) = k) by (rewrite firstn_length, skipn_length, istencil_length; destruct (Nat.even size); lia).
  apply (list_ext_nth 0); [rewrite LL, Ek; destruct (Nat.even size); reflexivity|]. intros j Hj. rewrite LL in Hj. rewrite N by exact Hj. rewrite Ek in Hj. destruct (Nat.even size); destruct j as [|[|j]]; try lia; cbn; ring.
Qed.
Section Solver.
Variable solve : list (list R) -> list R -> result (list R).
Hypothesis Hsol : correct_solver solve.
Hypothesis Hsm : solves_small solve.
Variable h : R.
Hypothesis Hh : h <> 0.
Lemma fv_cell : cell_of_method FiniteVolume (Some h) = Some (Some h).
Proof. cbn. destruct (Req_EM_T h 0); [contradiction | reflexivity]. Qed.
(** a one-dimensional interpolation system with one solution is solved *)
Lemma axis_solve st c : (1 <= length st <= 2)%nat -> length c = length st -> NoDup (map (fun m => map (fun x => average1 h x m) st) (seq 0 (length st))) ->
  exact_up_to (length st - 1) (Some h) [st] [0%nat] c -> (forall c', length c' = length st -> exact_up_to (length st - 1) (Some h) [st] [0%nat] c' -> c' = c) ->
  high_order_coefficients_1d solve st FiniteVolume 0 (Some h) = Ok c.
Proof.
  intros Hl Hc Hnd Hx Hu. unfold high_order_coefficients_1d. set (acc := (Z.of_nat (length st) - Z.of_nat 0)%Z).
  assert (Ed : Z.to_nat (acc + Z.of_nat (fold_right Nat.add 0%nat [0%nat]) - 1) = (length st - 1)%nat) by (unfold acc; cbn [fold_right]; lia).
  destruct (@constraints_found_if_possible_lem [st] FiniteVolume [0%nat] acc h c) as (A & b & E); try assumption; [discriminate | reflexivity | unfold acc; lia | discriminate | cbn; lia | rewrite Ed; exact Hx|].
  rewrite E. cbn [bind fst snd]. destruct (rows_shape _ _ _ _ _ E) as (HA & Hrow & _). change (asize (map (@length R) [st])) with (length st * 1)%nat in Hrow.
  assert (Em : map (row_lhs (Some h) [st]) (map (fun m => [m]) (seq 0 (length st))) = map (fun m => map (fun x => average1 h x m) st) (seq 0 (length st))) by (rewrite map_map; apply map_ext; intros m; apply row_1d).
  destruct (@rows_count [st] FiniteVolume [0%nat] acc h A b (Some h) (map (fun m => [m]) (seq 0 (length st))) E fv_cell) as (LA & _).
  { intros e. unfold max_deg. rewrite Ed. replace (length st) with (S (length st - 1)) by lia. rewrite exps_1d. cbn [length]. replace (S (length st - 1) - 1)%nat with (length st - 1)%nat by lia. tauto. }
  { rewrite Em. exact Hnd. }
  rewrite map_length, seq_length in LA.
  assert (Hsx : forall c', length c' = length st -> (solves A b c' <-> exact_up_to (length st - 1) (Some h) [st] [0%nat] c')).
  { intros c' Lc'. pose proof (@solves_exact [st] FiniteVolume [0%nat] acc (Some h) A b (Some h) c' E fv_cell ltac:(cbn; lia)) as X. unfold max_deg in X. rewrite Ed in X. exact X. }
  destruct (@Hsm A b c) as (c' & Ec'); [lia | intros row Hr; rewrite (Hrow row Hr); lia | lia | apply Hsx; [exact Hc | exact Hx] | intros c'' L'' S''; apply Hu; [lia | apply Hsx; [lia | exact S'']] |].
  rewrite Ec'. f_equal. destruct (Hsol Ec') as (H1 & H2). assert (Lc' : length c' = length st). { destruct A as [|r A]; [cbn in LA; lia|]. rewrite <- (H1 r) by (left; reflexivity). rewrite (Hrow r) by (left; reflexivity). lia. }
  apply Hu; [exact Lc' | apply Hsx; assumption].
Qed.
Lemma axis_one x : high_order_coefficients_1d solve [x] FiniteVolume 0 (Some h) = Ok [1].
Proof.
  apply axis_solve; [cbn; lia | reflexivity | cbn [length seq map]; repeat constructor; intros [] | |].
  - apply one_dim_cell; [reflexivity|]. intros m Hm. cbn [length] in Hm. replace m with 0%nat by lia. unfold rhs_term, rsum. cbn. unfold Pos.to_nat. cbn. rewrite avg0 by exact Hh. ring.
  - intros c' Lc' X. pose proof (proj1 (@one_dim_cell (Some h) [x] (length [x] - 1) 0 c' Lc') X) as X'; clear X; rename X' into X. specialize (X 0%nat ltac:(cbn; lia)). destruct c' as [|a [|? ?]]; cbn [length] in Lc'; try lia. f_equal. unfold rhs_term in X. unfold rsum in X. cbn in X. rewrite avg0 in X by exact Hh. lra.
Qed.
Lemma axis_two x d : x = - d * h -> high_order_coefficients_1d solve [x; x + h] FiniteVolume 0 (Some h) = Ok [1 - d; d].
Proof.
  intros Hx. apply axis_solve; [cbn; lia | reflexivity | | |].
  - cbn [length seq map]. rewrite !avg0, !avg1 by exact Hh. constructor; [|constructor; [intros [] | constructor]]. intros [E|[]]. injection E as E1 E2. apply Hh. lra.
  - apply one_dim_cell; [reflexivity|]. intros m Hm. cbn [length] in Hm. destruct m as [|[|m]]; [| |lia].
    + unfold rhs_term, rsum. cbn. unfold Pos.to_nat. cbn. rewrite !avg0 by exact Hh. ring.
    + unfold rhs_term, rsum. cbn. unfold Pos.to_nat. cbn. rewrite !avg1 by exact Hh. subst x. ring.
  - intros c' Lc' X. pose proof (proj1 (@one_dim_cell (Some h) [x; x + h] (length [x; x + h] - 1) 0 c' Lc') X) as X'; clear X; rename X' into X. pose proof (X 0%nat ltac:(cbn; lia)) as X1. pose proof (X 1%nat ltac:(cbn; lia)) as X2. destruct c' as [|a [|b [|? ?]]]; cbn [length] in Lc'; try lia.
    unfold rhs_term, rsum in X1, X2. cbn in X1, X2. unfold Pos.to_nat in X1, X2. cbn in X1, X2. rewrite !avg0 in X1 by exact Hh. rewrite !avg1 in X2 by exact Hh. subst x.
    assert (Hb : b = d). { apply Rmult_eq_reg_r with h; [|exact Hh]. assert (a = 1 - b) by lra. subst a. lra. }
    f_equal; [lra|]. f_equal. exact Hb.
Qed.
Lemma axis_middle size d : (0 < size)%nat -> let u := used_slice size 0 (Some 1%Z) in
  high_order_coefficients_1d solve (py_slice (istencil size d h) (fst u) (snd u)) FiniteVolume 0 (Some h) = Ok (if Nat.even size then [1 - d; d] else [1]).
Proof. intros H. cbv zeta. rewrite used_cells by exact H. destruct (Nat.even size); [apply axis_two; reflexivity | apply axis_one]. Qed.
Lemma axis_value_middle size d j : (0 < size)%nat -> axis_value (istencil size d h) (if Nat.even size then [1 - d; d] else [1]) (fst (used_slice size 0 (Some 1%Z))) j = middle_weight size d j.
Proof.
  intros H. rewrite used_middle by exact H. cbn [fst]. unfold axis_value. rewrite istencil_length. pose proof (before_bounds H) as HB. rewrite py_bound by lia. rewrite Nat2Z.id. unfold middle_weight. set (b := Z.of_nat (before size)).
  destruct (Nat.even size); cbn [length].
  - destruct (Z.eqb_spec j b) as [->|H1]; [rewrite Z.sub_diag; reflexivity|]. destruct (Z.eqb_spec j (b + 1)) as [->|H2]; [replace (b + 1 - b)%Z with 1%Z by lia; reflexivity|].
    destruct (Z.leb_spec 0 (j - b)), (Z.ltb_spec (j - b) (Z.of_nat 2)); cbn [andb]; try reflexivity; lia.
  - destruct (Z.eqb_spec j b) as [->|H1]; [rewrite Z.sub_diag; reflexivity|]. destruct (Z.leb_spec 0 (j - b)), (Z.ltb_spec (j - b) (Z.of_nat 1)); cbn [andb]; try reflexivity; lia.
Qed.
End Solver.
Lemma get_stencils_interp S shift h n : length S = n -> length shift = n -> (forall i, (i < n)%nat -> (0 < nth i S 0)%nat) ->
  get_stencils S shift (repeat h n) = map (fun i => istencil (nth i S 0%nat) (Q2R (nth i shift 0%Q)) h) (seq 0 n).
Proof.
  intros LS Lsh Hp. apply (list_ext_nth []).
  - unfold get_stencils. rewrite !map_length, !combine_length, repeat_length, seq_length. lia.
  - intros i Hi. unfold get_stencils in Hi. rewrite map_length, !combine_length, repeat_length in Hi. rewrite (@nth_map_seq _ (fun i => istencil (nth i S 0%nat) (Q2R (nth i shift 0%Q)) h)) by lia.
    destruct (@stencils_nth S shift (repeat h n) i) as (E1 & E2); [lia | rewrite repeat_length; lia | lia | apply Hp; lia|].
    apply (list_ext_nth 0); [rewrite E1, istencil_length; reflexivity|]. intros k Hk. rewrite E1 in Hk. rewrite E2 by exact Hk. rewrite istencil_nth by exact Hk. rewrite nth_repeat' by lia. ring.
Qed.
Lemma ones_row sts h k : h <> 0 -> (k < asize (map (@length R) sts))%nat -> nth k (row_lhs (Some h) sts (repeat 0%nat (length sts))) 0 = 1.
Proof.
  intros Hh Hk. unfold row_lhs. set (l := map _ (combine (repeat 0%nat (length sts)) sts)).
  assert (El : map (@length R) l = map (@length R) sts).
  { unfold l. rewrite map_map. clear. induction sts as [|s r IH]; [reflexivity|]. cbn [length repeat combine map fst snd]. rewrite map_length, IH. reflexivity. }
  pose proof (@tunflat_inb (map (@length R) sts) (Z.of_nat k) ltac:(lia)) as Hin. pose proof (@tflat_unflat (map (@length R) sts) (Z.of_nat k) ltac:(lia)) as Ef.
  pose proof (@kronr_nth l (tunflat (map (@length R) sts) (Z.of_nat k))) as K. rewrite El, Ef, Nat2Z.id in K. rewrite (K Hin). rewrite (@rprod_ext _ _ (fun _ => 1)).
  - generalize (length l). intros n. induction (seq 0 n) as [|x r IH]; [reflexivity|]. cbn [map]. rewrite rprod_cons, IH. ring.
  - intros i Hi. apply in_seq in Hi. assert (Ll : length l = length sts) by (rewrite <- (map_length (@length R) l), El, map_length; reflexivity).
    unfold l. rewrite (nth_map' _ _ (0%nat, []) []) by (rewrite combine_length, repeat_length; lia). rewrite combine_nth by (rewrite repeat_length; reflexivity). cbn [fst snd]. rewrite nth_repeat' by lia.
    pose proof (@inb_nth (map (@length R) sts) _ i Hin ltac:(rewrite map_length; lia)) as Hb. rewrite (nth_map' _ _ [] 0%nat) in Hb by lia. rewrite (nth_map' _ _ 0 0) by lia. apply avg0. exact Hh.
Qed.

Lemma rprod_ones n : rprod (map (fun _ : nat => 1) (seq 0 n)) = 1.
Proof. induction (seq 0 n) as [|x r IH]; [reflexivity|]. cbn [map]. rewrite rprod_cons, IH. ring. Qed.
Lemma rsum_two n b (F : Z -> R) : (0 <= b)%Z -> (b + 1 < Z.of_nat n)%Z -> (forall j, (0 <= j < Z.of_nat n)%Z -> j <> b -> j <> (b + 1)%Z -> F j = 0) -> rsum n F = F b + F (b + 1)%Z.
Proof.
  intros Hb Hn H. rewrite (@rsum_ext n F (fun j => (if (j =? b)%Z then F b else 0) + (if (j =? b + 1)%Z then F (b + 1)%Z else 0))).
  - rewrite rsum_plus. rewrite (@rsum_single n _ b); [| lia | intros i Hi Hne; destruct (Z.eqb_spec i b); [lia | reflexivity]]. rewrite (@rsum_single n _ (b + 1)%Z); [| lia | intros i Hi Hne; destruct (Z.eqb_spec i (b + 1)%Z); [lia | reflexivity]]. rewrite !Z.eqb_refl. reflexivity.
  - intros j Hj. destruct (Z.eqb_spec j b) as [->|H1]; [destruct (Z.eqb_spec b (b + 1)); [lia | ring]|]. destruct (Z.eqb_spec j (b + 1)) as [->|H2]; [ring|]. rewrite H by assumption. ring.
Qed.
Lemma middle_apply size d (F : Z -> R) : (0 < size)%nat -> rsum size (fun t => middle_weight size d t * F t) = if Nat.even size then (1 - d) * F (Z.of_nat (before size)) + d * F (Z.of_nat (before size) + 1)%Z else F (Z.of_nat (before size)).
Proof.
  intros H. pose proof (before_bounds H) as HB. unfold middle_weight. destruct (Nat.even size) eqn:Ee.
  - assert (E2 : (2 * before size + 2 = size)%nat) by (apply Nat.even_spec in Ee; destruct Ee as (q & Eq); lia). rewrite (@rsum_two size (Z.of_nat (before size))).
    + rewrite !Z.eqb_refl. destruct (Z.eqb_spec (Z.of_nat (before size) + 1) (Z.of_nat (before size))); [lia | reflexivity].
    + lia. + lia.
    + intros j Hj H1 H2. destruct (Z.eqb_spec j (Z.of_nat (before size))); [contradiction|]. destruct (Z.eqb_spec j (Z.of_nat (before size) + 1)); [contradiction | ring].
  - rewrite (@rsum_single size _ (Z.of_nat (before size))); [rewrite Z.eqb_refl; ring | lia |]. intros j Hj H1. destruct (Z.eqb_spec j (Z.of_nat (before size))); [contradiction | ring].
Qed.
(** what the construction of an interpolation layer gives *)
Record interp_layer (S : list nat) (shift : nat -> R) (pc : poly_constraint) : Prop := {
  il_size : pc_subspace_size pc = (Z.of_nat (asize S) - 1)%Z;
  il_bias_length : length (pc_bias pc) = asize S;
  il_bias : forall t, inb S t -> nth (Z.to_nat (tile_number S t)) (pc_bias pc) 0 = rprod (map (fun i => middle_weight (nth i S 0%nat) (shift i) (nth i t 0%Z)) (seq 0 (length S)));
  il_null_length : length (pc_nullspace pc) = (asize S - 1)%nat;
  il_row_length : forall row, In row (pc_nullspace pc) -> length row = asize S;
  il_row_sum : forall row, In row (pc_nullspace pc) -> rsum (asize S) (fun k => nth (Z.to_nat k) row 0) = 0 }.
Lemma layer_constructed solve svd h S shift n : correct_solver solve -> solves_small solve -> correct_svd svd -> h <> 0 -> (0 < n)%nat -> length S = n -> length shift = n -> (forall i, (i < n)%nat -> (0 < nth i S 0)%nat) -> (2 <= asize S)%nat ->
  exists pc, make_constraint solve svd (get_stencils S shift (repeat h n)) (repeat 0%nat n) FiniteVolume (repeat h n) 1 1 None = Ok pc /\ interp_layer S (fun i => Q2R (nth i shift 0%Q)) pc.
Proof.
  intros Hsol Hsm Hsvd Hh Hn LS Lsh Hp H2. rewrite get_stencils_interp by assumption. set (d := fun i => Q2R (nth i shift 0%Q)). set (sts := map (fun i => istencil (nth i S 0%nat) (Q2R (nth i shift 0%Q)) h) (seq 0 n)).
  assert (Lsts : length sts = n) by (unfold sts; rewrite map_length, seq_length; reflexivity).
  assert (Nst : forall i, (i < n)%nat -> nth i sts [] = istencil (nth i S 0%nat) (d i) h) by (intros i Hi; unfold sts; rewrite (@nth_map_seq _ (fun i => istencil (nth i S 0%nat) (Q2R (nth i shift 0%Q)) h)) by lia; reflexivity).
  assert (Esz : map (@length R) sts = S). { apply (list_ext_nth 0%nat); [rewrite map_length; lia|]. intros i Hi. rewrite map_length in Hi. rewrite (nth_map' _ _ [] 0%nat) by exact Hi. rewrite Nst by lia. apply istencil_length. }
  assert (Hne : sts <> []) by (intros E; rewrite E in Lsts; cbn in Lsts; lia).
  destruct (@coefs_forward solve sts FiniteVolume (repeat 0%nat n) (Some 1%Z) (Some h) (fun i => if Nat.even (nth i S 0%nat) then [1 - d i; d i] else [1])) as (g & Eg & Sg & Vg).
  { rewrite repeat_length. exact Lsts. } { exact Hne. }
  { intros i Hi. rewrite Lsts in Hi. rewrite nth_repeat' by exact Hi. rewrite Nst by exact Hi. rewrite istencil_length. cbv zeta. split; [apply (axis_middle Hsol Hsm Hh); apply Hp; exact Hi|]. rewrite used_cells by (apply Hp; exact Hi). destruct (Nat.even (nth i S 0%nat)); reflexivity. }
  destruct (@coefs_exact solve sts FiniteVolume (repeat 0%nat n) (Some 1%Z) h g (Some h) 1%Z Hsol (fv_cell Hh) Eg) as (_ & _ & X).
  { lia. } { intros i Hi. rewrite Lsts in Hi. rewrite nth_repeat' by exact Hi. rewrite Nst by exact Hi. rewrite istencil_length. specialize (Hp i Hi). lia. }
  assert (Hz : max_deg 1 (repeat 0%nat n) = 0%nat) by (unfold max_deg; rewrite zsum_repeat; reflexivity).
  destruct (@constraints_found_if_possible_lem sts FiniteVolume (repeat 0%nat n) 1%Z h (ravel g)) as (A & b & EA); [exact Hne | rewrite repeat_length; exact Lsts | lia | exact Hh | discriminate | rewrite ravel_length, Sg; reflexivity | exact X|].
  destruct (@rows_count sts FiniteVolume (repeat 0%nat n) 1%Z h A b (Some h) [repeat 0%nat n] EA (fv_cell Hh)) as (LA & HA).
  { intros e. rewrite Hz, Lsts. split.
    - intros [<- | []]. rewrite repeat_length, zsum_repeat. lia.
    - intros (H1 & H0). left. symmetry. rewrite <- H1. clear -H0. induction e as [|x e IH]; [reflexivity|]. cbn [fold_right length repeat] in *. rewrite <- IH by lia. f_equal. lia. }
  { cbn [map]. repeat constructor. intros []. }
  cbn [length] in LA. destruct (@default_bias_accepted_lem solve svd sts (repeat 0%nat n) FiniteVolume h (repeat h n) 1%Z 1%Z A b g Hsol) as (pc & Epc & Hb & Hs).
  { intros s Hs. apply repeat_spec in Hs. exact Hs. } { destruct n; [lia | discriminate]. } { exact EA. } { exact Eg. } { lia. }
  { intros i Hi. rewrite Lsts in Hi. rewrite nth_repeat' by exact Hi. rewrite Nst by exact Hi. rewrite istencil_length. specialize (Hp i Hi). lia. }
  { rewrite LA, Esz. change (fold_right Nat.mul 1%nat S) with (asize S). lia. }
  exists pc. split; [exact Epc|]. rewrite Esz, LA in Hs. change (fold_right Nat.mul 1%nat S) with (asize S) in Hs.
  destruct (make_inv _ _ _ _ _ _ _ _ _ Epc) as (h' & A' & b' & Hall & Hin & EA' & Hlen & _ & _ & Hsz & Hnz & Hnull). apply repeat_spec in Hin. subst h'. rewrite EA in EA'. injection EA' as <- <-.
  destruct (rows_shape _ _ _ _ _ EA) as (HneA & Hrow & _). destruct (Hsvd A _ HneA Hrow) as (LV & LVr & Hort). rewrite Esz in *. rewrite LA in *.
  rewrite slice_tail in Hnull by (rewrite LV, Hs; lia). rewrite LV, Hs in Hnull. replace (asize S - Z.to_nat (Z.of_nat (asize S) - Z.of_nat 1))%nat with 1%nat in Hnull by lia.
  assert (Hone : In (row_lhs (Some h) sts (repeat 0%nat n)) A) by (apply HA; left; reflexivity).
  assert (Ediv : forall x, x / fold_right Rmult 1 (map (fun k => h ^ k) (repeat 0%nat n)) = x). { intros x. replace (fold_right Rmult 1 (map (fun k => h ^ k) (repeat 0%nat n))) with 1; [field|]. clear. induction n as [|n IH]; [reflexivity|]. cbn. cbn in IH. rewrite <- IH. ring. }
  assert (Hnull' : pc_nullspace pc = skipn 1 (svd A)). { rewrite Hnull. rewrite <- (map_id (skipn 1 (svd A))) at 2. apply map_ext. intros row. rewrite <- (map_id row) at 2. apply map_ext. exact Ediv. }
  constructor.
  - exact Hs.
  - exact Hlen.
  - intros t Ht. rewrite Hb. rewrite (tile_number_flat S t). pose proof (@ravel_nth g t) as Er. rewrite Sg in Er. rewrite (Er Ht). rewrite Vg by exact Ht. rewrite Lsts, LS. apply rprod_ext. intros i Hi. apply in_seq in Hi. rewrite nth_repeat' by lia. rewrite Nst by lia. rewrite istencil_length. apply axis_value_middle. apply Hp. lia.
  - rewrite Hnull', skipn_length, LV. reflexivity.
  - intros row Hr. apply LVr. rewrite Hnull' in Hr. rewrite <- (firstn_skipn 1 (svd A)). apply in_or_app. right. exact Hr.
  - intros row Hr. rewrite Hnull' in Hr. destruct (In_nth _ _ [] Hr) as (j & Hj & Ej). rewrite skipn_length, LV in Hj. rewrite nth_skipn' in Ej. etransitivity; [|exact (Hort (1 + j)%nat _ ltac:(lia) Hone)]. apply rsum_ext. intros k Hk. rewrite Ej. pose proof (@ones_row sts h (Z.to_nat k) Hh) as O. rewrite Lsts, Esz in O. rewrite O by lia. ring.
Qed.
