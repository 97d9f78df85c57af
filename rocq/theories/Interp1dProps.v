(** * Property C44: one-dimensional interpolation *)
From Verif Require Import Prelude NdArr ArrayUtils_model ArrayUtilsProps FourierProofs Interp1d_model.
From Coq Require Import Permutation Sorted FinFun.
Set Implicit Arguments.
Local Open Scope Z_scope.

(** ** Specification vocabulary *)
(** The nodes [X 0, ..., X (n-1)] are pairwise different. *)
Definition distinct (n : nat) (X : Z -> R) : Prop := forall i j, 0 <= i < Z.of_nat n -> 0 <= j < Z.of_nat n -> X i = X j -> i = j.
Definition increasing (n : nat) (X : Z -> R) : Prop := forall i j, 0 <= i -> i < j -> j < Z.of_nat n -> (X i < X j)%R.
(** Nodes [a] and [b] are neighbours: [X a < X b] with no node between. *)
Definition neighbours (n : nat) (X : Z -> R) (a b : Z) : Prop :=
  0 <= a < Z.of_nat n /\ 0 <= b < Z.of_nat n /\ (X a < X b)%R /\ forall c, 0 <= c < Z.of_nat n -> (X c <= X a \/ X b <= X c)%R.
(** The line through the points of nodes [a] and [b], at [v]. *)
Definition line_through (X Y : Z -> R) (a b : Z) (v : R) : R := (Y a + (v - X a) * (Y b - Y a) / (X b - X a))%R.
(** Node [a] is the first (last) one. *)
Definition lowest (n : nat) (X : Z -> R) (a : Z) : Prop := 0 <= a < Z.of_nat n /\ forall c, 0 <= c < Z.of_nat n -> (X a <= X c)%R.
Definition highest (n : nat) (X : Z -> R) (a : Z) : Prop := 0 <= a < Z.of_nat n /\ forall c, 0 <= c < Z.of_nat n -> (X c <= X a)%R.
(** What the value at [v] must be: between two neighbouring nodes, the line through their points; outside, according
    to the fill rule: the line through the two outermost points, the outermost value, or the given value. *)
Definition interpolates (n : nat) (X Y : Z -> R) (fv : fill) (v : R) (r : option R) : Prop :=
  (forall a b, neighbours n X a b -> (X a <= v <= X b)%R -> r = Some (line_through X Y a b v)) /\
  (forall a b, lowest n X a -> neighbours n X a b -> (v < X a)%R ->
     r = match fv with FExtrapolate => Some (line_through X Y a b v) | FConstant => Some (Y a) | FScalar c => c | _ => None end) /\
  (forall a b, highest n X b -> neighbours n X a b -> (X b < v)%R ->
     r = match fv with FExtrapolate => Some (line_through X Y a b v) | FConstant => Some (Y b) | FScalar c => c | _ => None end).

(** ** The sorted case, one entry *)
Definition cnt (n : nat) (X : Z -> R) (v : R) : nat := length (filter (fun k => if Rle_dec (X (Z.of_nat k)) v then true else false) (seq 0 n)).
Lemma cnt_S n X v : cnt (S n) X v = (cnt n X v + (if Rle_dec (X (Z.of_nat n)) v then 1 else 0))%nat.
Proof.
  unfold cnt. rewrite seq_S, filter_app, app_length. cbn [plus filter]. destruct (Rle_dec _ _); reflexivity.
Qed.
Lemma cnt_le n X v : (cnt n X v <= n)%nat.
Proof. induction n; [cbn; lia|]. rewrite cnt_S. destruct (Rle_dec _ _); lia. Qed.
Lemma cnt_all n X v : (forall i, 0 <= i < Z.of_nat n -> (X i <= v)%R) -> cnt n X v = n.
Proof.
  induction n; intros H; [reflexivity|]. rewrite cnt_S, IHn by (intros i Hi; apply H; lia).
  destruct (Rle_dec _ _) as [|N]; [lia|]. destruct N. apply H. lia.
Qed.
Lemma cnt_spec n X v i : increasing n X -> 0 <= i < Z.of_nat n -> (X i <= v)%R <-> i < Z.of_nat (cnt n X v).
Proof.
  intros HX Hi. induction n; [lia|].
  assert (HX' : increasing n X) by (intros a b ? ? ?; apply HX; lia).
  rewrite cnt_S. destruct (Rle_dec (X (Z.of_nat n)) v) as [L|L].
  - rewrite cnt_all.
    + split; [lia|]. intros _. destruct (Z.eq_dec i (Z.of_nat n)) as [->|Hne]; [exact L|]. left. apply Rlt_le_trans with (X (Z.of_nat n)); [apply HX; lia | exact L].
    + intros j Hj. left. apply Rlt_le_trans with (X (Z.of_nat n)); [apply HX; lia | exact L].
  - rewrite Nat.add_0_r. destruct (Z.eq_dec i (Z.of_nat n)) as [->|Hne].
    + pose proof (cnt_le n X v). split; [intros H1; contradiction | lia].
    + apply IHn; [exact HX' | lia].
Qed.
(** Between neighbouring nodes (or beyond the last) the count is determined. *)
Lemma cnt_is n X v k : increasing n X -> 0 <= k <= Z.of_nat n -> (forall i, 0 <= i < k -> (X i <= v)%R) -> (k < Z.of_nat n -> (v < X k)%R) -> searchsorted_right n X v = k.
Proof.
  intros HX Hk H1 H2. unfold searchsorted_right. fold (cnt n X v). pose proof (cnt_le n X v) as Hle.
  destruct (Z.lt_trichotomy (Z.of_nat (cnt n X v)) k) as [L|[E|G]]; [|exact E|].
  - assert (Hx : (X (Z.of_nat (cnt n X v)) <= v)%R) by (apply H1; lia).
    apply (cnt_spec v HX) in Hx; lia.
  - assert (Hx : (X k <= v)%R) by (apply (cnt_spec v HX); lia). specialize (H2 ltac:(lia)). lra.
Qed.
Lemma vmin_inc n X : increasing n X -> (1 <= n)%nat -> vmin n X = X 0.
Proof.
  intros HX Hn. unfold vmin. assert (forall m, (m < n)%nat -> fold_left (fun m k => Rmin m (X (Z.of_nat k))) (seq 1 m) (X 0) = X 0) as H.
  { induction m; intros Hm; [reflexivity|]. rewrite seq_S, fold_left_app, IHm by lia. cbn [fold_left]. apply Rmin_left. left. apply HX; lia. }
  apply H. lia.
Qed.
Lemma vmax_inc n X : increasing n X -> (1 <= n)%nat -> vmax n X = X (Z.of_nat n - 1).
Proof.
  intros HX Hn. unfold vmax. assert (forall m, (m < n)%nat -> fold_left (fun m k => Rmax m (X (Z.of_nat k))) (seq 1 m) (X 0) = X (Z.of_nat m)) as H.
  { induction m; intros Hm; [reflexivity|]. rewrite seq_S, fold_left_app, IHm by lia. cbn [fold_left]. apply Rmax_right. left. apply HX; lia. }
  rewrite H by lia. f_equal. lia.
Qed.
Definition fill_ok (fv : fill) : Prop := match fv with FExtrapolate | FConstant | FScalar _ => True | _ => False end.

Section sorted.
Context (n : nat) (X : Z -> R) (Y : Z -> R) (fv : fill).
Hypothesis (HX : increasing n X) (Hn : (2 <= n)%nat) (Hf : fill_ok fv).
Let N := Z.of_nat n.
(** The pair of nodes used for [v]. *)
Lemma value_below v : (v < X 0)%R -> interp_value n X (fun i => Some (Y i)) fv v =
  match fv with FExtrapolate => Some (line_through X Y 0 1 v) | FConstant => Some (Y 0) | FScalar c => c | _ => None end.
Proof.
  intros Hv. unfold interp_value. cbv zeta. rewrite vmin_inc, vmax_inc by (assumption || lia).
  assert (H0 : (X 0 < X (Z.of_nat n - 1))%R) by (apply HX; lia). assert (H1 : (X 0 < X 1)%R) by (apply HX; lia).
  replace (Rmin (Rmax v (X 0)) (X (Z.of_nat n - 1))) with (X 0) by (rewrite Rmax_right by lra; rewrite Rmin_left by lra; reflexivity).
  rewrite (@cnt_is n X (X 0) 1); [|assumption|lia|intros i Hi; replace i with 0 by lia; lra|intros; assumption].
  replace (Z.min (Z.of_nat n - 1) 1) with 1 by lia. change (Z.max 0 (1 - 1)) with 0. cbn [negb].
  unfold line_through. destruct fv; try contradiction.
  - f_equal. field. lra.
  - f_equal. field. lra.
  - destruct (Rlt_dec _ _); [reflexivity|lra].
Qed.
Lemma value_in v k : 0 <= k -> k + 1 < N -> (X k <= v)%R -> (v < X (k + 1)%Z)%R \/ (v = X (k + 1) /\ k + 2 = N) -> interp_value n X (fun i => Some (Y i)) fv v = Some (line_through X Y k (k + 1) v).
Proof.
  unfold N. intros Hk Hk1 Hv Hv1. unfold interp_value. cbv zeta. rewrite vmin_inc, vmax_inc by (assumption || lia).
  assert (H0 : (X 0 <= v)%R). { destruct (Z.eq_dec k 0) as [->|]; [exact Hv|]. apply Rle_trans with (X k); [left; apply HX; lia | exact Hv]. }
  assert (H1 : (v <= X (Z.of_nat n - 1))%R).
  { destruct Hv1 as [L|[E1 E2]]; [|replace (Z.of_nat n - 1) with (k + 1) by lia; lra]. destruct (Z.eq_dec (k + 1) (Z.of_nat n - 1)) as [<-|]; [lra|].
    apply Rle_trans with (X (k + 1)); [lra | left; apply HX; lia]. }
  assert (H2 : (X k < X (k + 1)%Z)%R) by (apply HX; lia).
  rewrite (Rmax_left v) by lra. rewrite Rmin_left by lra.
  assert (Hs : Z.min (Z.of_nat n - 1) (searchsorted_right n X v) = k + 1).
  { destruct Hv1 as [L|[E1 E2]].
    - rewrite (@cnt_is n X v (k + 1)); [lia|assumption|lia| |intros; assumption].
      intros i Hi. destruct (Z.eq_dec i k) as [->|]; [assumption|]. apply Rle_trans with (X k); [left; apply HX; lia | assumption].
    - rewrite (@cnt_is n X v (Z.of_nat n)); [lia|assumption|lia| |lia].
      intros i Hi. rewrite E1. destruct (Z.eq_dec i (k + 1)) as [->|]; [lra|]. left. apply HX; lia. }
  rewrite Hs. replace (Z.max 0 (k + 1 - 1)) with k by lia.
  unfold line_through. destruct fv; try contradiction.
  - f_equal. field. lra.
  - f_equal. field. lra.
  - destruct (Rlt_dec _ _) as [?|_]; [lra|]. destruct (Rlt_dec _ _) as [?|_]; [lra|]. f_equal. field. lra.
Qed.
Lemma value_above v : (X (N - 1)%Z < v)%R -> interp_value n X (fun i => Some (Y i)) fv v =
  match fv with FExtrapolate => Some (line_through X Y (N - 2) (N - 1) v) | FConstant => Some (Y (N - 1)) | FScalar c => c | _ => None end.
Proof.
  unfold N. intros Hv. unfold interp_value. cbv zeta. rewrite vmin_inc, vmax_inc by (assumption || lia).
  assert (H0 : (X 0 < X (Z.of_nat n - 1))%R) by (apply HX; lia). assert (H1 : (X (Z.of_nat n - 2) < X (Z.of_nat n - 1)%Z)%R) by (apply HX; lia).
  rewrite (Rmax_left v) by lra. rewrite Rmin_right by lra.
  rewrite (@cnt_is n X (X (Z.of_nat n - 1)) (Z.of_nat n)); [|assumption|lia| |lia].
  2:{ intros i Hi. destruct (Z.eq_dec i (Z.of_nat n - 1)) as [->|]; [lra|]. left. apply HX; lia. }
  replace (Z.min (Z.of_nat n - 1) (Z.of_nat n)) with (Z.of_nat n - 1) by lia. replace (Z.max 0 (Z.of_nat n - 1 - 1)) with (Z.of_nat n - 2) by lia.
  unfold line_through. destruct fv; try contradiction.
  - f_equal. field. lra.
  - f_equal. field. lra.
  - destruct (Rlt_dec _ _); [reflexivity|]. destruct (Rlt_dec _ _); [reflexivity|]. lra.
Qed.
Lemma inc_lt i j : 0 <= i < N -> 0 <= j < N -> (X i < X j)%R -> i < j.
Proof.
  unfold N. intros Hi Hj H. destruct (Z.lt_trichotomy i j) as [L|[E|G]]; [exact L|subst; lra|]. assert ((X j < X i)%R) by (apply HX; lia). lra.
Qed.
Lemma inc_neighbours a b : neighbours n X a b -> b = a + 1.
Proof.
  intros (Ha & Hb & Hab & Hc). pose proof (@inc_lt a b Ha Hb Hab). destruct (Z.eq_dec b (a + 1)) as [|Hne]; [assumption|].
  assert ((X a < X (a + 1)%Z)%R) by (apply HX; lia). assert ((X (a + 1)%Z < X b)%R) by (apply HX; lia).
  destruct (Hc (a + 1) ltac:(lia)); lra.
Qed.
Lemma sorted_interpolates v : interpolates n X Y fv v (interp_value n X (fun i => Some (Y i)) fv v).
Proof.
  split; [|split].
  - intros a b Hab Hv. pose proof (inc_neighbours Hab) as ->. destruct Hab as (Ha & Hb & Hlt & _).
    destruct (Req_dec v (X (a + 1))) as [E|E].
    + destruct (Z.eq_dec (a + 2) N) as [E2|E2].
      * apply value_in; unfold N in *; try lia; [lra | right; auto].
      * assert ((X (a + 1)%Z < X (a + 1 + 1)%Z)%R) by (apply HX; unfold N in *; lia).
        rewrite (@value_in v (a + 1)); [|unfold N in *; lia|unfold N in *; lia|lra|left; lra].
        f_equal. unfold line_through. rewrite E. field. split; lra.
    + apply value_in; unfold N in *; try lia; [lra | left; lra].
  - intros a b [Ha Hlow] Hab Hv. assert (a = 0) as ->.
    { destruct (Z.eq_dec a 0); [assumption|]. assert ((X 0 < X a)%R) by (apply HX; lia). specialize (Hlow 0 ltac:(lia)). lra. }
    pose proof (inc_neighbours Hab) as ->. apply value_below. assumption.
  - intros a b [Hb Hhigh] Hab Hv. assert (b = N - 1) as ->.
    { destruct (Z.eq_dec b (N - 1)); [assumption|]. unfold N in *. assert ((X b < X (Z.of_nat n - 1)%Z)%R) by (apply HX; lia). specialize (Hhigh (Z.of_nat n - 1) ltac:(lia)). lra. }
    pose proof (inc_neighbours Hab) as E. replace a with (N - 2) by lia. apply value_above. assumption.
Qed.
End sorted.

(** ** argsort *)
Lemma insert_perm X k l : Permutation (insert_index X k l) (k :: l).
Proof.
  induction l as [|j l IH]; cbn; [apply Permutation_refl|]. destruct (Rlt_dec _ _); [apply Permutation_refl|].
  apply perm_trans with (j :: k :: l); [apply perm_skip; exact IH | apply perm_swap].
Qed.
Lemma insert_sorted X k l : StronglySorted (fun i j => (X i <= X j)%R) l -> StronglySorted (fun i j => (X i <= X j)%R) (insert_index X k l).
Proof.
  induction 1 as [|j l Hs IH Hf]; cbn; [repeat constructor|]. destruct (Rlt_dec _ _) as [L|L].
  - constructor; [constructor; assumption|]. constructor; [lra|]. eapply Forall_impl; [|exact Hf]. cbn. intros; lra.
  - constructor; [exact IH|]. apply (Permutation_Forall (Permutation_sym (insert_perm X k l))). constructor; [lra | exact Hf].
Qed.
Lemma argsort_S n X : argsort (S n) X = insert_index X (Z.of_nat n) (argsort n X).
Proof. unfold argsort. rewrite seq_S, fold_left_app. reflexivity. Qed.
Lemma argsort_perm n X : Permutation (argsort n X) (map Z.of_nat (seq 0 n)).
Proof.
  induction n; [constructor|]. rewrite argsort_S, seq_S, map_app. cbn [plus map].
  eapply perm_trans; [apply insert_perm|]. eapply perm_trans; [apply perm_skip; exact IHn|]. apply Permutation_cons_append.
Qed.
Lemma argsort_sorted n X : StronglySorted (fun i j => (X i <= X j)%R) (argsort n X).
Proof. induction n; [constructor|]. rewrite argsort_S. apply insert_sorted. assumption. Qed.
Lemma argsort_length n X : length (argsort n X) = n.
Proof. rewrite (Permutation_length (argsort_perm n X)), map_length, seq_length. reflexivity. Qed.
Lemma argsort_range n X k : 0 <= k < Z.of_nat n -> 0 <= nth (Z.to_nat k) (argsort n X) 0 < Z.of_nat n.
Proof.
  intros Hk. assert (H : In (nth (Z.to_nat k) (argsort n X) 0) (argsort n X)) by (apply nth_In; rewrite argsort_length; lia).
  apply (Permutation_in _ (argsort_perm n X)) in H. apply in_map_iff in H. destruct H as (m & <- & Hm). apply in_seq in Hm. lia.
Qed.
Lemma argsort_onto n X a : 0 <= a < Z.of_nat n -> exists i, 0 <= i < Z.of_nat n /\ nth (Z.to_nat i) (argsort n X) 0 = a.
Proof.
  intros Ha. assert (H : In a (argsort n X)).
  { apply (Permutation_in _ (Permutation_sym (argsort_perm n X))). apply in_map_iff. exists (Z.to_nat a). split; [lia|]. apply in_seq. lia. }
  apply (In_nth _ _ 0) in H. destruct H as (m & Hm & E). rewrite argsort_length in Hm. exists (Z.of_nat m). split; [lia|]. rewrite Nat2Z.id. exact E.
Qed.
Lemma ssorted_nth (P : Z -> Z -> Prop) l i j : StronglySorted P l -> (i < j)%nat -> (j < length l)%nat -> P (nth i l 0) (nth j l 0).
Proof.
  intros H. revert i j. induction H as [|a l Hs IH Hf]; cbn; intros i j Hij Hj; [lia|].
  destruct j; [lia|]. destruct i.
  - rewrite Forall_forall in Hf. apply Hf. apply nth_In. lia.
  - apply IH; lia.
Qed.
Lemma argsort_increasing n X : distinct n X -> increasing n (fun i => X (nth (Z.to_nat i) (argsort n X) 0)).
Proof.
  intros HX i j Hi Hij Hj.
  assert (H := @ssorted_nth _ _ (Z.to_nat i) (Z.to_nat j) (argsort_sorted n X) ltac:(lia) ltac:(rewrite argsort_length; lia)). cbn in H.
  destruct H as [H|H]; [exact H|]. exfalso.
  apply HX in H; [|apply argsort_range; lia|apply argsort_range; lia].
  assert (Hnd : NoDup (argsort n X)).
  { apply (Permutation_NoDup (Permutation_sym (argsort_perm n X))). apply FinFun.Injective_map_NoDup; [intros a b; apply Nat2Z.inj | apply seq_NoDup]. }
  rewrite (NoDup_nth _ 0) in Hnd. specialize (Hnd (Z.to_nat i) (Z.to_nat j)). rewrite argsort_length in Hnd. specialize (Hnd ltac:(lia) ltac:(lia) H). lia.
Qed.
(** A relabelling of the nodes does not change what interpolation means. *)
Lemma interpolates_relabel n X Y fv v r (s : Z -> Z) :
  (forall i, 0 <= i < Z.of_nat n -> 0 <= s i < Z.of_nat n) -> (forall a, 0 <= a < Z.of_nat n -> exists i, 0 <= i < Z.of_nat n /\ s i = a) ->
  interpolates n (fun i => X (s i)) (fun i => Y (s i)) fv v r -> interpolates n X Y fv v r.
Proof.
  intros Hr Ho (H1 & H2 & H3).
  assert (Hnb : forall i j, 0 <= i < Z.of_nat n -> 0 <= j < Z.of_nat n -> neighbours n X (s i) (s j) -> neighbours n (fun i => X (s i)) i j).
  { intros i j Hi Hj (_ & _ & Hlt & Hc). repeat split; try lia; [exact Hlt|]. intros c Hcr. apply Hc. apply Hr. exact Hcr. }
  split; [|split].
  - intros a b Hab Hv. assert (Hab' := Hab). destruct Hab' as (Ha & Hb & _). destruct (Ho a Ha) as (i & Hi & <-). destruct (Ho b Hb) as (j & Hj & <-).
    exact (H1 i j (Hnb i j Hi Hj Hab) Hv).
  - intros a b [Ha Hl] Hab Hv. assert (Hab' := Hab). destruct Hab' as (_ & Hb & _). destruct (Ho a Ha) as (i & Hi & <-). destruct (Ho b Hb) as (j & Hj & <-).
    refine (H2 i j _ (Hnb i j Hi Hj Hab) Hv). split; [exact Hi|]. intros c Hc. apply Hl. apply Hr. exact Hc.
  - intros a b [Hb Hl] Hab Hv. assert (Hab' := Hab). destruct Hab' as (Ha & _ & _). destruct (Ho a Ha) as (i & Hi & <-). destruct (Ho b Hb) as (j & Hj & <-).
    refine (H3 i j _ (Hnb i j Hi Hj Hab) Hv). split; [exact Hj|]. intros c Hc. apply Hl. apply Hr. exact Hc.
Qed.
Lemma interp_value_ext n X X' Y Y' fv v : (2 <= n)%nat -> (forall i, 0 <= i < Z.of_nat n -> X i = X' i) -> (forall i, 0 <= i < Z.of_nat n -> Y i = Y' i) -> interp_value n X Y fv v = interp_value n X' Y' fv v.
Proof.
  intros Hn HX HY.
  assert (Hm : vmin n X = vmin n X').
  { unfold vmin. rewrite (HX 0) by lia. assert (forall m z, (m < n)%nat -> fold_left (fun m k => Rmin m (X (Z.of_nat k))) (seq 1 m) z = fold_left (fun m k => Rmin m (X' (Z.of_nat k))) (seq 1 m) z) as H.
    { induction m; intros z Hm; [reflexivity|]. rewrite seq_S, !fold_left_app, IHm by lia. cbn [fold_left]. rewrite HX by lia. reflexivity. }
    apply H. lia. }
  assert (HM : vmax n X = vmax n X').
  { unfold vmax. rewrite (HX 0) by lia. assert (forall m z, (m < n)%nat -> fold_left (fun m k => Rmax m (X (Z.of_nat k))) (seq 1 m) z = fold_left (fun m k => Rmax m (X' (Z.of_nat k))) (seq 1 m) z) as H.
    { induction m; intros z Hmm; [reflexivity|]. rewrite seq_S, !fold_left_app, IHm by lia. cbn [fold_left]. rewrite HX by lia. reflexivity. }
    apply H. lia. }
  unfold interp_value. rewrite <- Hm, <- HM. set (w := Rmin (Rmax v (vmin n X)) (vmax n X)).
  assert (Hc : searchsorted_right n X w = searchsorted_right n X' w).
  { unfold searchsorted_right. do 2 f_equal. apply filter_ext_in. intros k Hk. apply in_seq in Hk. rewrite HX by lia. reflexivity. }
  rewrite <- Hc. assert (Hp : 0 <= searchsorted_right n X w) by (unfold searchsorted_right; lia).
  set (c := searchsorted_right n X w) in *. clearbody c. cbv zeta.
  set (a := Z.min (Z.of_nat n - 1) c). set (b := Z.max 0 (a - 1)).
  rewrite <- (HX a) by lia. rewrite <- (HX b) by lia. rewrite <- (HY a) by lia. rewrite <- (HY b) by lia. reflexivity.
Qed.

(** ** Theorems *)
(* @prop C44 interp1d(x, y, axis, fill_value, assume_sorted)(x_new) for every rank, every axis (also negative), every set of distinct nodes (increasing if assume_sorted) and every query array: the result has shape y.shape[:axis] + x_new.shape + y.shape[axis+1:], and every entry is the line through the two neighbouring points if the query lies between them; below the first or beyond the last node it is the line through the two outermost points, the outermost value, or the fill value, according to fill_value. *)
Lemma interp1d_interpolates_lem : forall (x y x_new : arr R) (axis : Z) (fv : fill) (assume_sorted : bool) (n d : nat),
  shp x = [n] -> (2 <= n)%nat -> denotes axis (ndim y) d -> nth d (shp y) 0%nat = n -> fill_ok fv ->
  (if assume_sorted then increasing n (fun i => get x [i]) else distinct n (fun i => get x [i])) ->
  exists r, interp1d x y axis fv assume_sorted x_new = Ok r /\ shp r = firstn d (shp y) ++ shp x_new ++ skipn (S d) (shp y) /\
    forall pre jx post, length pre = d -> length jx = ndim x_new ->
      interpolates n (fun i => get x [i]) (fun i => get y (pre ++ i :: post)) fv (get x_new jx) (get r (pre ++ jx ++ post)).
Proof.
  intros x y xn axis fv srt n d Hx Hn Hax Hny Hf Hs.
  assert (Hd : (d < ndim y)%nat) by (unfold denotes in Hax; lia).
  assert (Hcut : forall (pre jx post : list Z), length pre = d -> length jx = ndim xn ->
            firstn d (pre ++ jx ++ post) = pre /\ skipn (d + ndim xn) (pre ++ jx ++ post) = post /\ firstn (ndim xn) (skipn d (pre ++ jx ++ post)) = jx).
  { intros pre jx post Hp Hj. subst d. rewrite <- Hj. split; [|split].
    - rewrite firstn_app, Nat.sub_diag, firstn_all. cbn. apply app_nil_r.
    - rewrite app_assoc, skipn_app, app_length, Nat.sub_diag, skipn_all2 by (rewrite app_length; lia). reflexivity.
    - rewrite skipn_app, Nat.sub_diag, skipn_all. cbn [skipn app]. rewrite firstn_app, Nat.sub_diag, firstn_all. cbn. apply app_nil_r. }
  unfold interp1d. rewrite Hx. replace (n <? 2)%nat with false by (symmetry; apply Nat.ltb_ge; lia).
  destruct srt.
  - exists (mkarr (firstn d (shp y) ++ shp xn ++ skipn (S d) (shp y))
                      (fun ix => interp_value n (fun i => get x [i]) (fun i => Some (get y (firstn d ix ++ i :: skipn (d + ndim xn) ix))) fv
                                   (get xn (firstn (ndim xn) (skipn d ix))))).
    split; [|split; [reflexivity|]].
    + cbn [bind]. unfold shape_at. cbn [shp ndim]. change (ndim (mkarr (shp y) (fun ix => Some (get y ix)))) with (ndim y).
      replace (ndim y <? 1)%nat with false by (symmetry; apply Nat.ltb_ge; lia). rewrite (denotes_norm Hax). cbn [bind]. rewrite Hny, Nat.eqb_refl. cbn [negb].
      destruct fv; try contradiction; reflexivity.
    + intros pre jx post Hp Hj. cbn [get]. destruct (Hcut pre jx post Hp Hj) as (-> & -> & ->). apply sorted_interpolates; assumption.
  - set (ind := argsort n (fun i => get x [i])).
    set (ys := mkarr (upd d n (shp y)) (fun ix => let j := nth (Z.to_nat (nth d ix 0)) ind 0 in if j <? Z.of_nat n then Some (get y (upd d j ix)) else None)).
    exists (mkarr (firstn d (shp y) ++ shp xn ++ skipn (S d) (shp y))
                      (fun ix => interp_value n (fun i => get x [nth (Z.to_nat i) ind 0]) (fun i => get ys (firstn d ix ++ i :: skipn (d + ndim xn) ix)) fv
                                   (get xn (firstn (ndim xn) (skipn d ix))))).
    assert (Hshp : upd d n (shp y) = shp y) by (rewrite <- Hny; apply upd_nth_same).
    split; [|split; [reflexivity|]].
    + rewrite (denotes_norm Hax). cbn [bind]. rewrite Hny. fold ind. fold ys.
      assert (Hnd : ndim ys = ndim y) by (unfold ndim, ys; cbn [shp]; rewrite Hshp; reflexivity).
      unfold shape_at. rewrite Hnd. replace (ndim y <? 1)%nat with false by (symmetry; apply Nat.ltb_ge; lia).
      rewrite (denotes_norm Hax). cbn [bind]. assert (Hshp' : shp ys = shp y) by exact Hshp. rewrite Hshp', Hny, Nat.eqb_refl. cbn [negb].
      destruct fv; try contradiction; reflexivity.
    + intros pre jx post Hp Hj. cbn [get]. destruct (Hcut pre jx post Hp Hj) as (-> & -> & ->).
      apply (@interpolates_relabel n (fun i => get x [i]) (fun i => get y (pre ++ i :: post)) fv (get xn jx) _ (fun i => nth (Z.to_nat i) ind 0)).
      * intros i Hi. apply argsort_range. exact Hi.
      * intros a Ha. apply argsort_onto. exact Ha.
      * rewrite (@interp_value_ext n (fun i => get x [nth (Z.to_nat i) ind 0]) (fun i => get x [nth (Z.to_nat i) ind 0]) (fun i => get ys (pre ++ i :: post))
                   (fun i => Some (get y (pre ++ nth (Z.to_nat i) ind 0 :: post))) fv (get xn jx) Hn); [| reflexivity |].
        -- apply (@sorted_interpolates n (fun i => get x [nth (Z.to_nat i) ind 0]) (fun i => get y (pre ++ nth (Z.to_nat i) ind 0 :: post))); try assumption.
           apply (@argsort_increasing n (fun i => get x [i])). exact Hs.
        -- intros i Hi. unfold ys. cbn [get]. cbv zeta. rewrite <- Hp. rewrite nth_middle.
           pose proof (@argsort_range n (fun i => get x [i]) i Hi) as Hr. fold ind in Hr.
           replace (nth (Z.to_nat i) ind 0 <? Z.of_nat n) with true by (symmetry; apply Z.ltb_lt; lia).
           rewrite upd_mid. reflexivity.
Qed.
Lemma inc_distinct n X : increasing n X -> distinct n X.
Proof.
  intros HX i j Hi Hj E. destruct (Z.lt_trichotomy i j) as [L|[E'|G]]; [|exact E'|].
  - assert ((X i < X j)%R) by (apply HX; lia). lra.
  - assert ((X j < X i)%R) by (apply HX; lia). lra.
Qed.
Lemma bracket_inc n X v : increasing n X -> (2 <= n)%nat -> (X 0%Z <= v)%R -> (v <= X (Z.of_nat n - 1)%Z)%R ->
  exists k, 0 <= k /\ k + 1 < Z.of_nat n /\ (X k <= v <= X (k + 1)%Z)%R.
Proof.
  intros HX Hn H0 H1. pose proof (cnt_le n X v) as Hle.
  assert (Hpos : 0 < Z.of_nat (cnt n X v)) by (apply (cnt_spec v HX); [lia | exact H0]).
  destruct (Z.eq_dec (Z.of_nat (cnt n X v)) (Z.of_nat n)) as [E|E].
  - exists (Z.of_nat n - 2). replace (Z.of_nat n - 2 + 1) with (Z.of_nat n - 1) by lia. repeat split; try lia; [|exact H1].
    apply (cnt_spec v HX); lia.
  - exists (Z.of_nat (cnt n X v) - 1). replace (Z.of_nat (cnt n X v) - 1 + 1) with (Z.of_nat (cnt n X v)) by lia. repeat split; try lia.
    + apply (cnt_spec v HX); lia.
    + destruct (Rle_dec (X (Z.of_nat (cnt n X v))) v) as [L|L]; [|lra]. apply (cnt_spec v HX) in L; lia.
Qed.
Lemma bracket n X v c c' : distinct n X -> (2 <= n)%nat -> 0 <= c < Z.of_nat n -> (X c <= v)%R -> 0 <= c' < Z.of_nat n -> (v <= X c')%R ->
  exists a b, neighbours n X a b /\ (X a <= v <= X b)%R.
Proof.
  intros HX Hn Hc Hv Hc' Hv'. pose proof (argsort_increasing HX) as Hi. set (s := fun i => nth (Z.to_nat i) (argsort n X) 0) in *.
  destruct (@argsort_onto n X c Hc) as (i & Hir & Ei). destruct (@argsort_onto n X c' Hc') as (j & Hjr & Ej). fold (s i) in Ei. fold (s j) in Ej.
  assert (Hmono : forall i j, 0 <= i <= j -> j < Z.of_nat n -> (X (s i) <= X (s j))%R).
  { intros p q Hpq Hq. destruct (Z.eq_dec p q) as [->|]; [lra|]. left. apply (Hi p q); lia. }
  destruct (@bracket_inc n (fun i => X (s i)) v Hi Hn) as (k & Hk0 & Hk1 & Hk2 & Hk3).
  - apply Rle_trans with (X (s i)); [apply Hmono; lia | rewrite Ei; exact Hv].
  - apply Rle_trans with (X (s j)); [rewrite Ej; exact Hv' | apply Hmono; lia].
  - exists (s k), (s (k + 1)). split; [|split; assumption]. repeat split; try (apply argsort_range; lia).
    + apply (Hi k (k + 1)); lia.
    + intros q Hq. destruct (@argsort_onto n X q Hq) as (p & Hp & Ep). fold (s p) in Ep. rewrite <- Ep.
      destruct (Z_le_gt_dec p k); [left; apply Hmono; lia | right; apply Hmono; lia].
Qed.
Lemma line_between X Y a b v : (X a < X b)%R -> (X a <= v <= X b)%R -> (Rmin (Y a) (Y b) <= line_through X Y a b v <= Rmax (Y a) (Y b))%R.
Proof.
  intros H Hv. unfold line_through.
  assert (Ht : exists t, (0 <= t <= 1 /\ (v - X a) * (Y b - Y a) / (X b - X a) = t * (Y b - Y a))%R).
  { exists ((v - X a) / (X b - X a))%R. assert (Hi : (0 < / (X b - X a))%R) by (apply Rinv_0_lt_compat; lra). split; [split|].
    - apply Rmult_le_pos; lra.
    - apply Rmult_le_reg_r with (X b - X a)%R; [lra|]. unfold Rdiv. rewrite Rmult_assoc, Rinv_l by lra. lra.
    - field. lra. }
  destruct Ht as (t & Ht & ->). unfold Rmin, Rmax. destruct (Rle_dec (Y a) (Y b)); nra.
Qed.
(* @prop C44 Under the same conditions: at a query equal to a node the result is exactly the value given for that node; at a query between the smallest and the largest node the result is a number (never the fill value) that lies between the values at the two neighbouring nodes. *)
Lemma interp1d_nodes_and_range_lem : forall (x y x_new : arr R) (axis : Z) (fv : fill) (assume_sorted : bool) (n d : nat) (r : arr (option R)),
  shp x = [n] -> (2 <= n)%nat -> denotes axis (ndim y) d -> nth d (shp y) 0%nat = n -> fill_ok fv ->
  (if assume_sorted then increasing n (fun i => get x [i]) else distinct n (fun i => get x [i])) ->
  interp1d x y axis fv assume_sorted x_new = Ok r ->
  forall pre jx post, length pre = d -> length jx = ndim x_new ->
    (forall k, 0 <= k < Z.of_nat n -> get x_new jx = get x [k] -> get r (pre ++ jx ++ post) = Some (get y (pre ++ k :: post))) /\
    (forall lo hi, 0 <= lo < Z.of_nat n -> 0 <= hi < Z.of_nat n -> (get x [lo] <= get x_new jx <= get x [hi])%R ->
       exists a b w, neighbours n (fun i => get x [i]) a b /\ (get x [a] <= get x_new jx <= get x [b])%R /\ get r (pre ++ jx ++ post) = Some w /\
         (Rmin (get y (pre ++ a :: post)) (get y (pre ++ b :: post)) <= w <= Rmax (get y (pre ++ a :: post)) (get y (pre ++ b :: post)))%R).
Proof.
  intros x y xn axis fv srt n d r Hx Hn Hax Hny Hf Hs Hr pre jx post Hp Hj.
  destruct (@interp1d_interpolates_lem x y xn axis fv srt n d Hx Hn Hax Hny Hf Hs) as (r' & Er & _ & H). rewrite Hr in Er. injection Er as <-.
  specialize (H pre jx post Hp Hj). destruct H as (H & _ & _).
  assert (HD : distinct n (fun i => get x [i])) by (destruct srt; [apply inc_distinct|]; exact Hs).
  split.
  - intros k Hk E. destruct (@bracket n (fun i => get x [i]) (get xn jx) k k HD Hn Hk) as (a & b & Hab & Hv); [rewrite E; lra | exact Hk | rewrite E; lra|].
    rewrite (H a b Hab Hv). f_equal. unfold line_through. destruct Hab as (Ha & Hb & Hlt & Hc).
    rewrite E in *. destruct (Hc k Hk) as [L|L].
    + assert (k = a) as -> by (apply HD; [lia|lia|]; cbn; lra). field. lra.
    + assert (k = b) as -> by (apply HD; [lia|lia|]; cbn; lra). field. lra.
  - intros lo hi Hlo Hhi Hv. destruct (@bracket n (fun i => get x [i]) (get xn jx) lo hi HD Hn Hlo ltac:(apply Hv) Hhi ltac:(apply Hv)) as (a & b & Hab & Hvab).
    exists a, b. eexists. split; [exact Hab|]. split; [exact Hvab|]. split; [exact (H a b Hab Hvab)|].
    destruct Hab as (_ & _ & Hlt & _). apply (@line_between (fun i => get x [i]) (fun i => get y (pre ++ i :: post)) a b); assumption.
Qed.
Definition okp {A} (r : result A) : Prop := match r with Ok _ => True | Err _ => False end.
Lemma ok_okp {A} (r : result A) : is_ok r <-> okp r.
Proof. split; [intros [a ->]; exact I|]. destruct r; [eexists; reflexivity | intros []]. Qed.
(* @prop C44 With assume_sorted, interp1d succeeds exactly when fill_value is one of the two documented strings or a scalar, x has one axis with at least two entries, axis is a valid axis of y, and y has as many entries along it as x; otherwise it raises. *)
Lemma interp1d_sorted_accepts_lem : forall (x y x_new : arr R) (axis : Z) (fv : fill),
  is_ok (interp1d x y axis fv true x_new) <->
  fill_ok fv /\ exists n d, shp x = [n] /\ (2 <= n)%nat /\ denotes axis (ndim y) d /\ nth d (shp y) 0%nat = n.
Proof.
  intros x y xn axis fv. rewrite ok_okp. unfold interp1d.
  destruct (shp x) as [|n [|m l]] eqn:Ex.
  - split; [destruct fv; cbn; contradiction|]. intros (_ & n & d & E & _). discriminate.
  - split.
    + assert (Hfv : fill_ok fv \/ ~ fill_ok fv) by (destruct fv; cbn; tauto).
      destruct Hfv as [Hf|Hf]; [|destruct fv; cbn in *; tauto].
      intros H. split; [exact Hf|]. exists n.
      destruct (n <? 2)%nat eqn:En; [destruct fv; cbn in H; contradiction|]. apply Nat.ltb_ge in En.
      cbn [bind] in H. unfold shape_at in H. change (ndim (mkarr (shp y) (fun ix => Some (get y ix)))) with (ndim y) in H.
      destruct (normalize_axis axis (ndim y)) as [d|e] eqn:Ea.
      2:{ destruct (ndim y <? 1)%nat; try rewrite E in H; cbn [bind okp negb] in H; destruct fv; contradiction. }
      destruct (norm_inv _ _ Ea) as [_ Dn]. exists d. split; [reflexivity|]. split; [exact En|]. split; [exact Dn|].
      cbn [shp bind] in H. destruct (n =? nth d (shp y) 0)%nat eqn:E; [apply Nat.eqb_eq in E; auto|].
      destruct (ndim y <? 1)%nat; try rewrite E in H; cbn [bind okp negb] in H; destruct fv; contradiction.
    + intros (Hf & n' & d & E & Hn & Hd & Hy). injection E as <-.
      replace (n <? 2)%nat with false by (symmetry; apply Nat.ltb_ge; lia). cbn [bind]. unfold shape_at.
      change (ndim (mkarr (shp y) (fun ix => Some (get y ix)))) with (ndim y). cbn [shp].
      replace (ndim y <? 1)%nat with false by (symmetry; apply Nat.ltb_ge; unfold denotes in Hd; lia).
      rewrite (denotes_norm Hd). cbn [bind]. rewrite Hy, Nat.eqb_refl. cbn [negb]. destruct fv; try contradiction; reflexivity.
  - split; [destruct fv; cbn; contradiction|]. intros (_ & n' & d & E & _). discriminate.
Qed.
(* @prop C44 The documented check that x and y have equal lengths is NOT made when assume_sorted is False: reordering y with the sorting permutation of x gives it the length of x, so nodes and values of different lengths are accepted. *)
Lemma interp1d_unsorted_length_check_refuted_lem :
  exists (x y x_new : arr R) (fv : fill), shp x = [3%nat] /\ shp y = [5%nat] /\ interp1d x y (-1) fv true x_new = Err EValue /\
    is_ok (interp1d x y (-1) fv false x_new).
Proof.
  exists (mkarr [3%nat] (fun ix => IZR (nth 0 ix 0))), (mkarr [5%nat] (fun ix => IZR (nth 0 ix 0))), (mkarr [] (fun _ => 0%R)), FConstant.
  repeat split. apply ok_okp. exact I.
Qed.

(** ** Examples *)
Definition ex_x : arr R := mkarr [3%nat] (fun ix => nth (Z.to_nat (nth 0 ix 0%Z)) [1%R; 0%R; 3%R] 0%R).
Definition ex_y : arr R := mkarr [2%nat; 3%nat] (fun ix => (IZR (nth 0 ix 0%Z) + nth (Z.to_nat (nth 1 ix 0%Z)) [10%R; 20%R; 50%R] 0%R)%R).
Lemma ex_x0 : get ex_x [0] = 1%R. Proof. reflexivity. Qed.
Lemma ex_x1 : get ex_x [1] = 0%R. Proof. reflexivity. Qed.
Lemma ex_x2 : get ex_x [2] = 3%R. Proof. reflexivity. Qed.
Lemma ex_distinct : distinct 3 (fun i => get ex_x [i]).
Proof.
  intros i j Hi Hj.
  assert (Hc : i = 0 \/ i = 1 \/ i = 2) by lia. assert (Hd : j = 0 \/ j = 1 \/ j = 2) by lia.
  destruct Hc as [-> | [-> | ->]], Hd as [-> | [-> | ->]]; rewrite ?ex_x0, ?ex_x1, ?ex_x2; intros E; try reflexivity; lra.
Qed.
(* @ex *)
Lemma interp1d_interpolates_ex_lem : exists r, interp1d ex_x ex_y (-1) FConstant false (mkarr [1%nat] (fun _ => 2%R)) = Ok r /\ shp r = [2%nat; 1%nat] /\ get r [1; 0] = Some 31%R.
Proof.
  destruct (@interp1d_interpolates_lem ex_x ex_y (mkarr [1%nat] (fun _ => 2%R)) (-1) FConstant false 3 1) as (r & E & S & H);
    [reflexivity | lia | unfold denotes; cbn; lia | reflexivity | exact I | exact ex_distinct |].
  exists r. split; [exact E|]. split; [exact S|]. specialize (H [1] [0] [] eq_refl eq_refl). destruct H as (H & _). cbn [app] in H.
  rewrite (H 0 2); [| | rewrite ex_x0, ex_x2; cbn [get]; lra].
  - f_equal. unfold line_through. rewrite ex_x0, ex_x2. cbv [get ex_y nth Z.to_nat Pos.to_nat Pos.iter_op Nat.add]. field.
  - repeat split; try lia; [rewrite ex_x0, ex_x2; lra|]. intros c Hc. assert (Hd : c = 0 \/ c = 1 \/ c = 2) by lia. destruct Hd as [-> | [-> | ->]]; rewrite ?ex_x0, ?ex_x1, ?ex_x2; lra.
Qed.
(* @ex *)
Lemma interp1d_nodes_and_range_ex_lem : exists r, interp1d ex_x ex_y (-1) FExtrapolate false (mkarr [1%nat] (fun _ => 3%R)) = Ok r /\ get r [1; 0] = Some 51%R.
Proof.
  destruct (@interp1d_interpolates_lem ex_x ex_y (mkarr [1%nat] (fun _ => 3%R)) (-1) FExtrapolate false 3 1) as (r & E & _ & _);
    [reflexivity | lia | unfold denotes; cbn; lia | reflexivity | exact I | exact ex_distinct |].
  exists r. split; [exact E|].
  destruct (@interp1d_nodes_and_range_lem ex_x ex_y (mkarr [1%nat] (fun _ => 3%R)) (-1) FExtrapolate false 3 1 r) with (pre := [1]) (jx := [0]) (post := @nil Z) as [H _];
    [reflexivity | lia | unfold denotes; cbn; lia | reflexivity | exact I | exact ex_distinct | exact E | reflexivity | reflexivity |].
  cbn [app] in H. rewrite (H 2); [|lia|reflexivity]. f_equal.
Qed.
(* @ex *)
Lemma interp1d_sorted_accepts_ex_lem : is_ok (interp1d ex_x ex_y 1 (FScalar None) true ex_x) /\ ~ is_ok (interp1d ex_x ex_y 0 (FScalar None) true ex_x) /\ ~ is_ok (interp1d ex_x ex_y 1 FOtherString true ex_x).
Proof. rewrite !ok_okp. repeat split; cbn; auto. Qed.
