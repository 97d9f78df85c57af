(** * Kronecker products, monomials, dictionaries *)
From Verif Require Import Prelude NdArr ArrayUtils_model ArrayUtilsProps Tiling_model SpecTile TilingProofs TilingProps Stencil_model SpecStencil.
Set Implicit Arguments.
Local Open Scope R_scope.

Definition rprod (l : list R) : R := fold_right Rmult 1 l.
Lemma kron2_length a b : length (kron2 a b) = (length a * length b)%nat.
Proof. unfold kron2. induction a as [|x a IH]; [reflexivity|]. cbn [flat_map length]. rewrite app_length, map_length, IH. lia. Qed.
Lemma kron2_map x a b : kron2 (map (Rmult x) a) b = map (Rmult x) (kron2 a b).
Proof.
  unfold kron2. induction a as [|y a IH]; [reflexivity|]. cbn [map flat_map]. rewrite IH, map_app. f_equal. rewrite map_map. apply map_ext. intros z. ring.
Qed.
Lemma kron2_app a a' b : kron2 (a ++ a') b = kron2 a b ++ kron2 a' b.
Proof. unfold kron2. apply flat_map_app. Qed.
Lemma kron2_assoc a b c : kron2 (kron2 a b) c = kron2 a (kron2 b c).
Proof.
  induction a as [|x a IH]; [reflexivity|]. change (kron2 (x :: a) b) with (map (Rmult x) b ++ kron2 a b). rewrite kron2_app, kron2_map, IH. reflexivity.
Qed.
Lemma kron2_1 a : kron2 a [1] = a.
Proof. induction a as [|x a IH]; [reflexivity|]. change (kron2 (x :: a) [1]) with (x * 1 :: kron2 a [1]). rewrite IH, Rmult_1_r. reflexivity. Qed.
Definition kronr (l : list (list R)) : list R := fold_right kron2 [1] l.
Lemma kron_fold l : forall a, fold_left kron2 l a = kron2 a (kronr l).
Proof. induction l as [|b l IH]; intros a; cbn [fold_left kronr fold_right]; [symmetry; apply kron2_1|]. rewrite IH, kron2_assoc. reflexivity. Qed.
Lemma kronecker_ok l : l <> [] -> kronecker_product l = Ok (kronr l).
Proof. destruct l as [|a l]; [congruence|]. intros _. cbn [kronecker_product]. rewrite kron_fold. reflexivity. Qed.
Lemma kronr_length l : length (kronr l) = asize (map (@length R) l).
Proof. induction l as [|a l IH]; [reflexivity|]. cbn [kronr fold_right map]. rewrite kron2_length. fold (kronr l). rewrite IH. reflexivity. Qed.
Lemma kronr_nth l : forall t, inb (map (@length R) l) t ->
  nth (Z.to_nat (tflat (map (@length R) l) t)) (kronr l) 0 = rprod (map (fun i => nth (Z.to_nat (nth i t 0%Z)) (nth i l []) 0) (seq 0 (length l))).
Proof.
  induction l as [|a l IH]; intros [|k t] Ht; cbn [map inb] in Ht; try tauto. destruct Ht as (Hk & Ht). pose proof (@tflat_range _ _ Ht) as R0. cbn [map tflat kronr fold_right].
  replace (Z.to_nat (k * Z.of_nat (asize (map (@length R) l)) + tflat (map (@length R) l) t)) with (Z.to_nat k * asize (map (@length R) l) + Z.to_nat (tflat (map (@length R) l) t))%nat by nia.
  fold (kronr l). unfold kron2. rewrite (@nth_flat_map R R _ (asize (map (@length R) l)) 0 0); [| intros x _; rewrite map_length; apply kronr_length | lia | lia].
  rewrite (nth_map' _ _ 0 0) by (rewrite kronr_length; lia). rewrite IH by exact Ht. cbn [length seq map nth]. unfold rprod at 2. cbn [fold_right]. f_equal. unfold rprod. rewrite <- seq_shift, map_map. reflexivity.
Qed.

(** ** flat sums *)
Lemma rsum_app n m f : rsum (n + m) f = rsum n f + rsum m (fun i => f (Z.of_nat n + i)%Z).
Proof.
  induction m as [|m IH]; [rewrite Nat.add_0_r; cbn; ring|]. rewrite Nat.add_succ_r. cbn [rsum]. rewrite IH. replace (Z.of_nat (n + m)) with (Z.of_nat n + Z.of_nat m)%Z by lia. ring.
Qed.
Lemma rsum_mul n m f : rsum (n * m) f = rsum n (fun i => rsum m (fun j => f (i * Z.of_nat m + j)%Z)).
Proof.
  induction n as [|n IH]; [reflexivity|]. cbn [rsum]. rewrite <- IH. replace (S n * m)%nat with (n * m + m)%nat by lia. rewrite rsum_app. f_equal. apply rsum_ext. intros j _. f_equal. lia.
Qed.
Lemma asum_flat s : forall F, asum s (fun t => F (tflat s t)) = rsum (asize s) F.
Proof.
  induction s as [|n s IH]; intros F; [cbn; ring|]. cbn [asum tflat]. change (asize (n :: s)) with (n * asize s)%nat. rewrite rsum_mul. apply rsum_ext. intros i _. apply (IH (fun k => F (i * Z.of_nat (asize s) + k)%Z)).
Qed.

(** ** monomials *)
Fixpoint ff (e k : nat) : R := match k with O => 1 | S k' => INR e * ff (e - 1) k' end.
Lemma ff_fact e : ff e e = INR (fact e).
Proof. induction e as [|e IH]; [reflexivity|]. cbn [ff]. replace (S e - 1)%nat with e by lia. rewrite IH. change (fact (S e)) with (S e * fact e)%nat. rewrite mult_INR. reflexivity. Qed.
Lemma ff_0 e k : (e < k)%nat -> ff e k = 0.
Proof. revert e. induction k as [|k IH]; intros e H; [lia|]. cbn [ff]. destruct e as [|e]; [cbn; ring|]. rewrite IH by lia. ring. Qed.
Lemma ff_snoc k : forall e, ff e (S k) = ff e k * INR (e - k).
Proof.
  induction k as [|k IH]; intros e; [cbn [ff]; rewrite Nat.sub_0_r; ring|]. change (ff e (S (S k))) with (INR e * ff (e - 1) (S k)). rewrite IH. change (ff e (S k)) with (INR e * ff (e - 1) k). replace (e - S k)%nat with (e - 1 - k)%nat by lia. ring.
Qed.
Definition pd1 (i : nat) (ae : R * list nat) : R * list nat := (fst ae * INR (nth i (snd ae) 0%nat), upd i (nth i (snd ae) 0 - 1)%nat (snd ae)).
Fixpoint d1 (i : nat) (orders : list nat) (ae : R * list nat) : R * list nat :=
  match orders with [] => ae | k :: r => Nat.iter k (pd1 i) (d1 (S i) r ae) end.
Lemma iter_map {A} (f : A -> A) k l : Nat.iter k (map f) l = map (Nat.iter k f) l.
Proof. induction k as [|k IH]; [symmetry; apply map_id|]. change (map f (Nat.iter k (map f) l) = map (fun x => f (Nat.iter k f x)) l). rewrite IH, map_map. reflexivity. Qed.
Lemma derivative_map orders : forall i p, derivative i orders p = map (d1 i orders) p.
Proof.
  induction orders as [|k r IH]; intros i p; cbn [derivative d1]; [symmetry; apply map_id|]. rewrite IH. etransitivity; [apply (@iter_map _ (pd1 i) k)|]. apply map_map.
Qed.
Lemma pd1_iter i k a e : (i < length e)%nat -> Nat.iter k (pd1 i) (a, e) = (a * ff (nth i e 0%nat) k, upd i (nth i e 0 - k)%nat e).
Proof.
  intros Hi. induction k as [|k IH]; [cbn [Nat.iter nat_rect ff]; rewrite Nat.sub_0_r, upd_self, Rmult_1_r; reflexivity|]. change (Nat.iter (S k) (pd1 i) (a, e)) with (pd1 i (Nat.iter k (pd1 i) (a, e))). rewrite IH. unfold pd1. cbn [fst snd]. rewrite nth_upd_same by exact Hi. rewrite upd_upd_same, ff_snoc.
  f_equal; [ring|]. f_equal. lia.
Qed.
Lemma d1_eq orders : forall i a e, (length e = i + length orders)%nat ->
  d1 i orders (a, e) = (a * rprod (map (fun j => ff (nth (i + j) e 0%nat) (nth j orders 0%nat)) (seq 0 (length orders))), firstn i e ++ map (fun j => (nth (i + j) e 0 - nth j orders 0)%nat) (seq 0 (length orders))).
Proof.
  induction orders as [|k r IH]; intros i a e HL.
  - cbn [length seq map rprod fold_right d1]. rewrite Rmult_1_r, app_nil_r. rewrite firstn_all2 by (cbn in HL; lia). reflexivity.
  - cbn [d1 length] in *. rewrite IH by lia. rewrite pd1_iter.
    2:{ rewrite app_length, firstn_length, map_length, seq_length. lia. }
    assert (Ei : nth i (firstn (S i) e ++ map (fun j : nat => (nth (S i + j) e 0 - nth j r 0)%nat) (seq 0 (length r))) 0%nat = nth i e 0%nat).
    { rewrite app_nth1 by (rewrite firstn_length; lia). clear - HL. assert (i < length e)%nat by lia. clear HL. revert i H. induction e as [|x e IH]; intros [|i] H; cbn in *; try lia; auto. apply IH. lia. }
    rewrite Ei. cbn [seq map nth]. rewrite Nat.add_0_r. rewrite <- seq_shift, !map_map. f_equal.
    + unfold rprod. cbn [fold_right]. rewrite (map_ext (fun j => ff (nth (i + S j) e 0%nat) (nth j r 0%nat)) (fun j => ff (nth (S i + j) e 0%nat) (nth j r 0%nat))); [ring|]. intros j. f_equal. f_equal. lia.
    + rewrite upd_app_l by (rewrite firstn_length; lia). rewrite (map_ext (fun x => (nth (i + S x) e 0 - nth x r 0)%nat) (fun j => (nth (S i + j) e 0 - nth j r 0)%nat)) by (intros j; do 2 f_equal; lia).
      replace (upd i (nth i e 0%nat - k)%nat (firstn (S i) e)) with (firstn i e ++ [(nth i e 0 - k)%nat]); [rewrite <- app_assoc; reflexivity|].
      clear - HL. assert (i < length e)%nat by lia. clear HL. revert i H. induction e as [|x e IH]; intros [|i] H; cbn in *; try lia; auto. f_equal. apply IH. lia.
Qed.
Lemma rprod_zero l : In 0 l -> rprod l = 0.
Proof. intros H. unfold rprod. induction l as [|x l IH]; [destruct H|]. cbn [fold_right]. destruct H as [-> | H]; [ring | rewrite (IH H); ring]. Qed.
Lemma rprod_ext {A} (f g : A -> R) l : (forall x, In x l -> f x = g x) -> rprod (map f l) = rprod (map g l).
Proof. intros H. f_equal. apply map_ext_in. exact H. Qed.
Lemma rprod_mult {A} (f g : A -> R) l : rprod (map (fun x => f x * g x) l) = rprod (map f l) * rprod (map g l).
Proof. unfold rprod. induction l as [|x l IH]; cbn; [ring|]. rewrite IH. ring. Qed.
Lemma combine_seq_map {A B} (a : list A) (b : list B) da db : length b = length a -> combine a b = map (fun i => (nth i a da, nth i b db)) (seq 0 (length a)).
Proof.
  revert b. induction a as [|x a IH]; intros [|y b] H; cbn [length] in H; try discriminate; [reflexivity|]. cbn [combine length seq map nth]. f_equal. rewrite <- seq_shift, map_map. apply IH. lia.
Qed.
Lemma term_deriv_0 orders a e : length e = length orders ->
  fst (d1 0 orders (a, e)) * term_at (snd (d1 0 orders (a, e))) (repeat 0 (length orders)) = a * rprod (map (fun ed => rhs_term (fst ed) (snd ed)) (combine e orders)).
Proof.
  intros HL. rewrite d1_eq by (cbn; exact HL). cbn [fst snd firstn app Nat.add]. rewrite Rmult_assoc. f_equal. unfold term_at. fold (rprod (map (fun ex : nat * R => snd ex ^ fst ex) (combine (map (fun j : nat => (nth j e 0 - nth j orders 0)%nat) (seq 0 (length orders))) (repeat 0 (length orders))))).
  rewrite (combine_seq_map (map (fun j : nat => (nth j e 0 - nth j orders 0)%nat) (seq 0 (length orders))) (repeat 0 (length orders)) 0%nat 0) by (rewrite repeat_length, map_length, seq_length; reflexivity).
  rewrite (combine_seq_map e orders 0%nat 0%nat) by (symmetry; exact HL). rewrite map_length, seq_length, !map_map, HL. rewrite <- rprod_mult. apply rprod_ext. intros i Hi. apply in_seq in Hi. cbn [fst snd].
  rewrite (@nth_map_seq _ (fun j : nat => (nth j e 0 - nth j orders 0)%nat)) by lia. rewrite nth_repeat' by lia. unfold rhs_term. destruct (Nat.eqb_spec (nth i e 0%nat) (nth i orders 0%nat)) as [E|E].
  - rewrite <- E, Nat.sub_diag, ff_fact. cbn [pow]. ring.
  - destruct (Nat.lt_ge_cases (nth i e 0%nat) (nth i orders 0%nat)) as [H|H]; [rewrite ff_0 by exact H; ring|]. rewrite (@pow_i (nth i e 0 - nth i orders 0)%nat) by lia. ring.
Qed.

(** ** exponents *)
Lemma exps_in n : forall deg e, In e (exponents_up_to_degree deg n) <-> (length e = n /\ (fold_right Nat.add 0 e <= deg)%nat).
Proof.
  induction n as [|n IH]; intros deg e; cbn [exponents_up_to_degree].
  - split; [intros [<- | []]; cbn; lia | intros (H & _); destruct e; [left; reflexivity | discriminate]].
  - rewrite in_flat_map. split.
    + intros (d & Hd & Hin). apply in_map_iff in Hin. destruct Hin as (e' & <- & He'). apply IH in He'. apply in_seq in Hd. cbn [length fold_right]. lia.
    + intros (HL & HS). destruct e as [|d e]; [discriminate|]. cbn [length fold_right] in *. exists d. split; [apply in_seq; lia|]. apply in_map. apply IH. lia.
Qed.

(** ** the row of a monomial *)
Definition cell_of_method (method : fd_method) (grid_step : option R) : option (option R) :=
  match method with FiniteDifference => Some None | FiniteVolume => match grid_step with Some h => if Req_EM_T h 0 then None else Some (Some h) | None => None end | OtherMethod => None end.
Definition term1 (cell : option R) (x : R) (m : nat) : R := match cell with None => x ^ m | Some h => average1 h x m end.
Definition term_sample (cell : option R) (e : list nat) (x : list R) : R := rprod (map (fun ex => term1 cell (snd ex) (fst ex)) (combine e x)).
Lemma sample_terms cell p x : sample cell p x = fold_right Rplus 0 (map (fun ae => fst ae * term_sample cell (snd ae) x) p).
Proof. destruct cell; reflexivity. Qed.
Lemma lhs_term_ok method gs cell e st : cell_of_method method gs = Some cell -> lhs_term method gs e st = Ok (map (fun x => term1 cell x e) st).
Proof.
  unfold cell_of_method, lhs_term. destruct method; [intros [= <-]; reflexivity | | discriminate]. destruct gs as [h|]; [|discriminate]. destruct (Req_EM_T h 0) as [|Hh]; [discriminate|]. intros [= <-]. f_equal. apply map_ext. intros x. cbn [term1]. unfold average1. assert (INR (e + 1) <> 0) by (apply not_0_INR; lia). field. auto.
Qed.
Lemma lhs_term_err method gs e st : cell_of_method method gs = None -> forall v, lhs_term method gs e st <> Ok v.
Proof.
  unfold cell_of_method, lhs_term. destruct method; [discriminate | | discriminate]. destruct gs as [h|]; [|discriminate]. destruct (Req_EM_T h 0) as [|Hh]; discriminate.
Qed.
Lemma mapM_all_ok {X Y} (f : X -> result Y) (g : X -> Y) l : (forall x, In x l -> f x = Ok (g x)) -> mapM f l = Ok (map g l).
Proof. induction l as [|x l IH]; intros H; [reflexivity|]. cbn [mapM map]. rewrite (H x) by (left; reflexivity). cbn [bind]. rewrite IH by (intros y Hy; apply H; right; exact Hy). reflexivity. Qed.
Definition row_lhs (cell : option R) (sts : list (list R)) (e : list nat) : list R := kronr (map (fun es => map (fun x => term1 cell x (fst es)) (snd es)) (combine e sts)).
Definition row_rhs (orders e : list nat) : R := rprod (map (fun ed => rhs_term (fst ed) (snd ed)) (combine e orders)).
Lemma monomial_row_ok method gs cell sts orders e : cell_of_method method gs = Some cell -> sts <> [] -> length e = length sts ->
  monomial_row method gs sts orders e = Ok (row_lhs cell sts e, row_rhs orders e).
Proof.
  intros Hc Hs HL. unfold monomial_row. rewrite (@mapM_all_ok _ _ _ (fun es => map (fun x => term1 cell x (fst es)) (snd es))) by (intros es _; apply lhs_term_ok; exact Hc). cbn [bind].
  rewrite kronecker_ok by (destruct sts; [congruence|]; destruct e; [discriminate|]; cbn; discriminate). reflexivity.
Qed.
Lemma row_sizes cell sts e : length e = length sts -> map (@length R) (map (fun es => map (fun x => term1 cell x (fst es)) (snd es)) (combine e sts)) = map (@length R) sts.
Proof.
  intros HL. rewrite map_map. rewrite (map_ext _ (fun es : nat * list R => length (snd es))) by (intros es; apply map_length). revert sts HL. induction e as [|k e IH]; intros [|s sts] HL; cbn [length] in HL; try discriminate; [reflexivity|]. cbn [combine map snd]. f_equal. apply IH. lia.
Qed.
Lemma row_length cell sts e : length e = length sts -> length (row_lhs cell sts e) = asize (map (@length R) sts).
Proof. intros HL. unfold row_lhs. rewrite kronr_length, row_sizes by exact HL. reflexivity. Qed.
Lemma row_nth cell sts e t : length e = length sts -> inb (map (@length R) sts) t -> nth (Z.to_nat (tflat (map (@length R) sts) t)) (row_lhs cell sts e) 0 = term_sample cell e (position sts t).
Proof.
  intros HL Ht. unfold row_lhs. rewrite <- (@row_sizes cell sts e HL) in Ht |- *. rewrite kronr_nth by exact Ht. rewrite row_sizes in Ht by exact HL. unfold term_sample, position. rewrite map_length, combine_length, HL, Nat.min_id.
  rewrite (combine_seq_map e (map (fun i : nat => nth (Z.to_nat (nth i t 0%Z)) (nth i sts []) 0) (seq 0 (length sts))) 0%nat 0) by (rewrite map_length, seq_length; auto). rewrite map_map, HL. apply rprod_ext. intros i Hi. apply in_seq in Hi. cbn [fst snd].
  rewrite (nth_map' _ _ (0%nat, []) []) by (rewrite combine_length; lia). rewrite combine_nth by exact HL. cbn [fst snd]. rewrite (@nth_map_seq _ (fun i : nat => nth (Z.to_nat (nth i t 0%Z)) (nth i sts []) 0)) by lia.
  rewrite (nth_map' _ _ 0 0); [reflexivity|]. pose proof (inb_length _ _ Ht) as Lt. rewrite map_length in Lt. pose proof (@inb_nth _ _ i Ht ltac:(rewrite map_length; lia)) as Hb. rewrite (nth_map' _ _ [] 0%nat) in Hb by lia. lia.
Qed.
Lemma row_dot cell sts e c : length e = length sts -> rsum (asize (map (@length R) sts)) (fun j => nth (Z.to_nat j) (row_lhs cell sts e) 0 * nth (Z.to_nat j) c 0) = stencil_sum sts c (fun t => term_sample cell e (position sts t)).
Proof.
  intros HL. rewrite <- (asum_flat (map (@length R) sts) (fun j => nth (Z.to_nat j) (row_lhs cell sts e) 0 * nth (Z.to_nat j) c 0)). unfold stencil_sum. apply asum_ext. intros t Ht. rewrite row_nth by auto. rewrite (tile_number_flat (map (@length R) sts) t). ring.
Qed.

(** ** the dictionary *)
Lemma dict_get_in d k v : dict_get d k = Some v -> In (k, v) d.
Proof. induction d as [|(k', v') d IH]; cbn [dict_get]; [discriminate|]. destruct (rlist_dec k k') as [->|]; [intros [= ->]; left; reflexivity | intros H; right; apply IH; exact H]. Qed.
Lemma dict_get_none d k : dict_get d k = None -> forall v, ~ In (k, v) d.
Proof. induction d as [|(k', v') d IH]; cbn [dict_get]; intros H v []; destruct (rlist_dec k k') as [->|Hn]; try discriminate; [congruence | eapply IH; eauto]. Qed.
Lemma dict_fold {X} (row : X -> result (list R * R)) (f : X -> list R * R) l : forall d d', (forall x, In x l -> row x = Ok (f x)) ->
  foldM (fun d x => let* r := row x in dict_add d (fst r) (snd r)) d l = Ok d' ->
  forall kv, In kv d' <-> In kv d \/ exists x, In x l /\ f x = kv.
Proof.
  induction l as [|x l IH]; intros d d' Hf E kv; cbn [foldM] in E.
  - injection E as <-. split; [auto | intros [H | (x & [] & _)]; exact H].
  - rewrite (Hf x) in E by (left; reflexivity). cbn [bind] in E. destruct (dict_add d (fst (f x)) (snd (f x))) as [d1|er] eqn:Ed; [|discriminate]. cbn [bind] in E.
    assert (Hf' : forall y, In y l -> row y = Ok (f y)) by (intros y Hy; apply Hf; right; exact Hy). rewrite (IH d1 d' Hf' E kv). unfold dict_add in Ed.
    assert (H1 : In kv d1 <-> In kv d \/ f x = kv).
    { destruct (dict_get d (fst (f x))) as [v|] eqn:Eg.
      - destruct (Req_EM_T v (snd (f x))) as [->|]; [|discriminate]. injection Ed as <-. apply dict_get_in in Eg. rewrite <- surjective_pairing in Eg. split; [auto | intros [H | <-]; assumption].
      - injection Ed as <-. rewrite in_app_iff. cbn [In]. rewrite <- surjective_pairing. tauto. }
    rewrite H1. split; [intros [[H | H] | (y & Hy & E')]; [left; exact H | right; exists x; split; [left; reflexivity | exact H] | right; exists y; split; [right; exact Hy | exact E']] |
      intros [H | (y & [<- | Hy] & E')]; [left; left; exact H | left; right; exact E' | right; exists y; split; assumption]].
Qed.
Lemma dict_fold_ok {X} (row : X -> result (list R * R)) (f : X -> list R * R) l : forall d, (forall x, In x l -> row x = Ok (f x)) ->
  (forall x kv, In x l -> In kv d \/ (exists y, In y l /\ f y = kv) -> fst (f x) = fst kv -> snd (f x) = snd kv) ->
  exists d', foldM (fun d x => let* r := row x in dict_add d (fst r) (snd r)) d l = Ok d'.
Proof.
  induction l as [|x l IH]; intros d Hf Hc; cbn [foldM]; [eauto|]. rewrite (Hf x) by (left; reflexivity). cbn [bind].
  assert (Hd : exists d1, dict_add d (fst (f x)) (snd (f x)) = Ok d1 /\ forall kv, In kv d1 -> In kv d \/ f x = kv).
  { unfold dict_add. destruct (dict_get d (fst (f x))) as [v|] eqn:Eg.
    - apply dict_get_in in Eg. destruct (Req_EM_T v (snd (f x))) as [->|Hn]; [eauto|]. exfalso. apply Hn. symmetry. apply (Hc x _ (or_introl eq_refl) (or_introl Eg)). reflexivity.
    - eexists; split; [reflexivity|]. intros kv. rewrite in_app_iff. cbn [In]. rewrite <- surjective_pairing. tauto. }
  destruct Hd as (d1 & -> & Hd1). cbn [bind]. apply IH; [intros y Hy; apply Hf; right; exact Hy|]. intros y kv Hy Hkv Efst. apply (Hc y kv (or_intror Hy)); [|exact Efst].
  destruct Hkv as [Hkv | (z & Hz & Ez)]; [|right; exists z; split; [right; exact Hz | exact Ez]]. destruct (Hd1 kv Hkv) as [H|H]; [left; exact H | right; exists x; split; [left; reflexivity | exact H]].
Qed.
Lemma insert_in kv l x : In x (insert_item kv l) <-> x = kv \/ In x l.
Proof.
  induction l as [|y l IH]; cbn [insert_item]; [cbn; intuition|]. destruct (lex_lt (fst kv) (fst y)); cbn [In]; [intuition|]. rewrite IH. intuition.
Qed.
Lemma sort_in l x : In x (sort_items l) <-> In x l.
Proof. unfold sort_items. induction l as [|y l IH]; [reflexivity|]. cbn [fold_right]. rewrite insert_in, IH. cbn [In]. intuition. Qed.
Lemma insert_length kv l : length (insert_item kv l) = S (length l).
Proof. induction l as [|y l IH]; cbn [insert_item]; [reflexivity|]. destruct (lex_lt (fst kv) (fst y)); cbn [length]; [reflexivity|]. rewrite IH. reflexivity. Qed.
Lemma sort_length l : length (sort_items l) = length l.
Proof. unfold sort_items. induction l as [|y l IH]; [reflexivity|]. cbn [fold_right length]. rewrite insert_length, IH. reflexivity. Qed.

Definition max_deg (acc : Z) (orders : list nat) : nat := Z.to_nat (acc + Z.of_nat (fold_right Nat.add 0%nat orders) - 1).
Lemma constraints_inv sts method orders acc gs A b : polynomial_accuracy_constraints sts method orders acc gs = Ok (A, b) ->
  length sts = length orders /\ (1 <= acc)%Z /\ sts <> [] /\ exists cell, cell_of_method method gs = Some cell /\ length A = length b /\
    (forall r, (exists k, (k < length A)%nat /\ nth k A [] = fst r /\ nth k b 0 = snd r) <-> exists e, length e = length sts /\ (fold_right Nat.add 0 e <= max_deg acc orders)%nat /\ r = (row_lhs cell sts e, row_rhs orders e)).
Proof.
  unfold polynomial_accuracy_constraints. destruct (Nat.eqb_spec (length sts) (length orders)) as [HL|]; [|discriminate]. cbn [negb]. destruct (Z.ltb_spec acc 1) as [|Ha]; [discriminate|]. fold (max_deg acc orders).
  set (row := monomial_row method gs sts orders). match goal with |- context [bind (foldM ?F ?a ?l)] => destruct (foldM F a l) as [d|er] eqn:E; [|discriminate] end. cbn [bind]. intros [= <- <-]. split; [exact HL|]. split; [exact Ha|].
  assert (H0 : In (repeat 0%nat (length sts)) (exponents_up_to_degree (max_deg acc orders) (length sts))).
  { apply exps_in. rewrite repeat_length. split; [reflexivity|]. assert (Z0 : forall n, fold_right Nat.add 0%nat (repeat 0%nat n) = 0%nat) by (intros n; induction n as [|n IH]; cbn; auto). rewrite Z0. lia. }
  assert (Hrow : exists r0, row (repeat 0%nat (length sts)) = Ok r0).
  { clear - H0 E. revert E. generalize (@nil (list R * R)) as d0. induction (exponents_up_to_degree (max_deg acc orders) (length sts)) as [|x l IH]; intros d0 E; [destruct H0|]. cbn [foldM] in E. destruct (row x) as [rx|er] eqn:Er; [|discriminate]. cbn [bind] in E. destruct (dict_add d0 (fst rx) (snd rx)) as [d1|er]; [|discriminate]. cbn [bind] in E.
    destruct H0 as [-> | H0]; [eauto | apply (IH H0 d1 E)]. }
  destruct Hrow as (r0 & Hr0).
  assert (Hs : sts <> []). { intros ->. unfold row, monomial_row in Hr0. cbn in Hr0. discriminate. } split; [exact Hs|].
  destruct (cell_of_method method gs) as [cell|] eqn:Ec.
  2:{ exfalso. unfold row, monomial_row in Hr0. destruct sts as [|s sts]; [congruence|]. cbn [length repeat combine mapM fst snd] in Hr0. destruct (lhs_term method gs 0 s) as [v|er] eqn:El; [|discriminate]. exact (@lhs_term_err method gs 0 s Ec v El). }
  exists cell. split; [reflexivity|]. split; [rewrite !map_length; reflexivity|].
  assert (Hf : forall x, In x (exponents_up_to_degree (max_deg acc orders) (length sts)) -> row x = Ok (row_lhs cell sts x, row_rhs orders x)).
  { intros x Hx. apply exps_in in Hx. unfold row. apply monomial_row_ok; [exact Ec | exact Hs | apply Hx]. }
  pose proof (@dict_fold (list nat) row (fun x => (row_lhs cell sts x, row_rhs orders x)) (exponents_up_to_degree (max_deg acc orders) (length sts)) [] d Hf E) as HD. intros r. split.
  - intros (k & Hk & E1 & E2). rewrite map_length in Hk. assert (Hin : In r (sort_items d)).
    { rewrite (surjective_pairing r), <- E1, <- E2. rewrite (nth_map' _ _ ([], 0) []), (nth_map' _ _ ([], 0) 0) by exact Hk. rewrite <- surjective_pairing. apply nth_In. exact Hk. }
    apply (proj1 (sort_in d r)) in Hin. apply HD in Hin. destruct Hin as [[] | (e & He & <-)]. apply exps_in in He. exists e. tauto.
  - intros (e & He1 & He2 & ->). assert (Hin : In (row_lhs cell sts e, row_rhs orders e) (sort_items d)).
    { apply sort_in. apply HD. right. exists e. split; [apply exps_in; auto | reflexivity]. }
    destruct (In_nth _ _ ([], 0) Hin) as (k & Hk & Ek). exists k. rewrite map_length. split; [exact Hk|]. rewrite (nth_map' _ _ ([], 0) []), (nth_map' _ _ ([], 0) 0) by exact Hk. rewrite Ek. auto.
Qed.

(** ** products of sums *)
Lemma rprod_cons x l : rprod (x :: l) = x * rprod l. Proof. reflexivity. Qed.
Lemma asum_prod s : forall G : nat -> Z -> R, asum s (fun t => rprod (map (fun i => G i (nth i t 0%Z)) (seq 0 (length s)))) = rprod (map (fun i => rsum (nth i s 0%nat) (G i)) (seq 0 (length s))).
Proof.
  induction s as [|n s IH]; intros G; [reflexivity|]. cbn [asum length seq map nth]. rewrite rprod_cons. rewrite <- seq_shift, !map_map. rewrite <- (IH (fun i => G (S i))).
  rewrite <- rsum_scal_r. apply rsum_ext. intros j _. rewrite <- asum_scal. apply asum_ext. intros t _. rewrite rprod_cons, map_map. reflexivity.
Qed.
Lemma solver_1d solve st method d h cell c : correct_solver solve -> cell_of_method method (Some h) = Some cell -> high_order_coefficients_1d solve st method d (Some h) = Ok c ->
  length c = length st /\ forall m, (m < length st)%nat -> rsum (length st) (fun j => nth (Z.to_nat j) c 0 * term1 cell (nth (Z.to_nat j) st 0) m) = rhs_term m d.
Proof.
  intros Hsol Ec. unfold high_order_coefficients_1d. destruct (polynomial_accuracy_constraints _ _ _ _ _) as [(A, b)|er] eqn:E; [|discriminate]. cbn [bind fst snd]. intros Hc. destruct (Hsol _ _ _ Hc) as (Hlen & Hs).
  destruct (constraints_inv _ _ _ _ _ E) as (_ & Ha & _ & cell' & Ec' & HAb & HR). rewrite Ec in Ec'. injection Ec' as <-.
  assert (Hd : max_deg (Z.of_nat (length st) - Z.of_nat d) [d] = (length st - 1)%nat) by (unfold max_deg; cbn [fold_right]; lia).
  assert (HLc : length c = length st).
  { destruct (proj2 (HR (row_lhs cell [st] [0%nat], row_rhs [d] [0%nat]))) as (k & Hk & E1 & E2); [exists [0%nat]; cbn; repeat split; lia|]. cbn [fst] in E1. rewrite <- (Hlen (nth k A [])) by (apply nth_In; exact Hk). rewrite E1, row_length by reflexivity. cbn. lia. }
  split; [exact HLc|]. intros m Hm. destruct (proj2 (HR (row_lhs cell [st] [m], row_rhs [d] [m]))) as (k & Hk & E1 & E2); [exists [m]; rewrite Hd; cbn; repeat split; lia|]. cbn [fst snd] in E1, E2. destruct Hs as (_ & Hs). specialize (Hs k Hk). rewrite E1, E2 in Hs.
  unfold row_rhs in Hs. cbn [combine map fst snd] in Hs. unfold rprod in Hs. cbn [fold_right] in Hs. rewrite Rmult_1_r in Hs. rewrite <- Hs, HLc. apply rsum_ext. intros j Hj.
  assert (Ht : inb (map (@length R) [st]) [j]) by (cbn [map inb]; lia). pose proof (@row_nth cell [st] [m] [j] eq_refl Ht) as En. cbn [map tflat] in En. change (asize []) with 1%nat in En. replace (j * Z.of_nat 1 + 0)%Z with j in En by lia. rewrite En. unfold term_sample, position. cbn [length seq map nth combine fst snd]. unfold rprod. cbn [fold_right]. ring.
Qed.

Lemma mapM_nth_ok {X Y} (f : X -> result Y) l ys dx dy : mapM f l = Ok ys -> length ys = length l /\ forall i, (i < length l)%nat -> f (nth i l dx) = Ok (nth i ys dy).
Proof.
  revert ys. induction l as [|x l IH]; intros ys E; cbn [mapM] in E.
  - injection E as <-. split; [reflexivity | cbn; lia].
  - destruct (f x) as [y|] eqn:Ey; [|discriminate]. cbn [bind] in E. destruct (mapM f l) as [ys'|]; [|discriminate]. cbn [bind] in E. injection E as <-. destruct (IH ys' eq_refl) as (H1 & H2). split; [cbn; lia|]. intros [|i] Hi; [exact Ey|]. cbn [nth length] in *. apply H2. lia.
Qed.
Lemma py_bound n z : (0 <= z <= Z.of_nat n)%Z -> py_slice_bound n z = Z.to_nat z.
Proof. intros H. unfold py_slice_bound. replace (z <? 0)%Z with false by (symmetry; apply Z.ltb_ge; lia). rewrite Z.min_r, Z.max_r by lia. reflexivity. Qed.
Definition fits (size order : nat) (accb : option Z) : Prop := match accb with Some a => (0 <= Z.of_nat order + a <= Z.of_nat size)%Z | None => True end.
Lemma used_slice_ok {A} (l : list A) order accb start stop : fits (length l) order accb -> used_slice (length l) order accb = (start, stop) ->
  (0 <= start)%Z /\ py_slice_bound (length l) start = Z.to_nat start /\ py_slice l start stop = firstn (length (py_slice l start stop)) (skipn (Z.to_nat start) l) /\
  (Z.to_nat start + length (py_slice l start stop) <= length l)%nat /\ match accb with Some a => (Z.of_nat order + a <= Z.of_nat (length (py_slice l start stop)))%Z | None => length (py_slice l start stop) = length l end.
Proof.
  intros Hf. unfold used_slice. set (excess := match accb with Some a => _ | None => _ end). intros [= <- <-].
  assert (He : (0 <= excess <= Z.of_nat (length l))%Z) by (unfold excess; destruct accb as [a|]; [cbn in Hf; lia | lia]).
  pose proof (Z.div_mod excess 2 ltac:(lia)) as D. pose proof (Z.mod_pos_bound excess 2 ltac:(lia)) as M. unfold py_slice. rewrite !py_bound by lia.
  set (k := (Z.to_nat (Z.of_nat (length l) - excess / 2) - Z.to_nat (excess / 2))%nat).
  assert (Lk : length (firstn k (skipn (Z.to_nat (excess / 2)) l)) = k) by (rewrite firstn_length, skipn_length; unfold k; lia). rewrite Lk.
  split; [lia|]. split; [reflexivity|]. split; [reflexivity|]. unfold k. split; [lia|]. unfold excess in *. destruct accb as [a|]; [cbn in Hf; lia | cbn; lia].
Qed.
Lemma ravel_nth a t : inb (shp a) t -> nth (Z.to_nat (tflat (shp a) t)) (ravel a) 0 = get a t.
Proof.
  intros Ht. pose proof (@tflat_range _ _ Ht) as H. unfold ravel. rewrite (@nth_map_seq _ (fun k => get a (tunflat (shp a) (Z.of_nat k)))) by lia. rewrite Z2Nat.id by lia. rewrite tunflat_flat by exact Ht. reflexivity.
Qed.
Lemma ravel_length a : length (ravel a) = asize (shp a).
Proof. unfold ravel. rewrite map_length, seq_length. reflexivity. Qed.
Lemma rsum_window n s k (f : Z -> R) (g : Z -> R) : (s + k <= n)%nat -> (forall j, (0 <= j < Z.of_nat k)%Z -> f (Z.of_nat s + j)%Z = g j) -> (forall j, (0 <= j < Z.of_nat n)%Z -> (j < Z.of_nat s \/ Z.of_nat s + Z.of_nat k <= j)%Z -> f j = 0) ->
  rsum n f = rsum k g.
Proof.
  intros Hn Hin Hout. replace n with (s + (k + (n - s - k)))%nat by lia. rewrite !rsum_app. rewrite (@rsum_ext s f (fun _ => 0)) by (intros j Hj; apply Hout; lia). rewrite rsum_0.
  rewrite (@rsum_ext k (fun i => f (Z.of_nat s + i)%Z) g) by (intros j Hj; apply Hin; lia).
  rewrite (@rsum_ext (n - s - k) (fun i => f (Z.of_nat s + (Z.of_nat k + i))%Z) (fun _ => 0)) by (intros j Hj; apply Hout; lia). rewrite rsum_0. ring.
Qed.

Section Coefs.
Variable solve : list (list R) -> list R -> result (list R).
Hypothesis Hsol : correct_solver solve.
Lemma coefs_axis (st : list R) method d accb h cell start stop c : cell_of_method method (Some h) = Some cell -> fits (length st) d accb -> used_slice (length st) d accb = (start, stop) ->
  high_order_coefficients_1d solve (py_slice st start stop) method d (Some h) = Ok c ->
  let s := py_slice_bound (length st) start in let k := length (py_slice st start stop) in
  let g := fun j => if ((0 <=? j - Z.of_nat s) && (j - Z.of_nat s <? Z.of_nat k))%Z%bool then nth (Z.to_nat (j - Z.of_nat s)) c 0 else 0 in
  length c = k /\ (match accb with Some a => (Z.of_nat d + a <= Z.of_nat k)%Z | None => k = length st end) /\
  forall m, (m < k)%nat -> rsum (length st) (fun j => g j * term1 cell (nth (Z.to_nat j) st 0) m) = rhs_term m d.
Proof.
  intros Ec Hf Eu Hc s k g. destruct (@used_slice_ok R st d accb start stop Hf Eu) as (H0 & H1 & H2 & H3 & H4). fold k in H2, H3, H4. destruct (@solver_1d solve _ method d h cell c Hsol Ec Hc) as (L1 & V1). fold k in L1, V1. split; [exact L1|]. split; [exact H4|].
  intros m Hm. rewrite <- (V1 m Hm). apply rsum_window with (s := s); [unfold s; rewrite H1; exact H3 | |].
  - intros j Hj. unfold g. replace ((0 <=? Z.of_nat s + j - Z.of_nat s) && (Z.of_nat s + j - Z.of_nat s <? Z.of_nat k))%Z%bool with true by (symmetry; apply andb_true_intro; split; [apply Z.leb_le | apply Z.ltb_lt]; lia).
    replace (Z.to_nat (Z.of_nat s + j - Z.of_nat s)) with (Z.to_nat j) by lia. f_equal. f_equal. rewrite H2. replace (Z.to_nat (Z.of_nat s + j)) with (Z.to_nat start + Z.to_nat j)%nat by (unfold s; rewrite H1; lia).
    assert (Hjk : (Z.to_nat j < k)%nat) by lia. generalize (Z.to_nat start) as a. generalize (Z.to_nat j) as i, Hjk. clear. intros i Hi a.
    assert (E1 : nth i (firstn k (skipn a st)) 0 = nth i (skipn a st) 0).
    { revert i Hi. generalize (skipn a st) as l. induction k as [|k IH]; intros l i Hi; [lia|]. destruct l as [|x l]; [reflexivity|]. destruct i as [|i]; [reflexivity|]. cbn [firstn nth]. apply IH. lia. }
    rewrite E1. clear. revert st. induction a as [|a IH]; intros st; [reflexivity|]. destruct st as [|x st]; [cbn; destruct i; reflexivity|]. cbn [skipn Nat.add nth]. apply IH.
  - intros j Hj Hout. unfold g. replace ((0 <=? j - Z.of_nat s) && (j - Z.of_nat s <? Z.of_nat k))%Z%bool with false; [ring|]. symmetry. apply not_true_is_false. intros H. apply andb_prop in H. destruct H as (A1 & A2). apply Z.leb_le in A1. apply Z.ltb_lt in A2. lia.
Qed.
End Coefs.
