(** * Prelude: results (exceptions as values), list helpers, finite sums.

    Infrastructure only: nothing in this file models a specific function of
    /repo, except where a comment says so. *)
From Coq Require Export List ZArith QArith Qround Qabs Reals Lia Lra Bool Arith.
From Coq Require Export Permutation FunctionalExtensionality.
Export ListNotations.
Set Implicit Arguments.

(** Exceptions the modelled code can raise. *)
Inductive err :=
| EValue        (* ValueError *)
| EType         (* TypeError *)
| ENotImpl      (* NotImplementedError *)
| EOffset       (* grids.InconsistentOffsetError *)
| EGrid         (* grids.InconsistentGridError *)
| EBC           (* grids.InconsistentBoundaryConditionsError *)
| EShape        (* array shapes that the model does not broadcast *)
| EIndex        (* IndexError / bad slice bounds *)
| ENaN          (* the code would produce NaN from a [None] boundary value *)
| EZeroDiv      (* ZeroDivisionError *)
| EAssert       (* AssertionError *)
| EUnbound      (* use of a value that was never computed *).

Inductive result (A : Type) : Type := Ok (a : A) | Err (e : err).
Arguments Ok {A} _.
Arguments Err {A} _.

Definition bind {A B : Type} (r : result A) (f : A -> result B) : result B :=
  match r with Ok a => f a | Err e => Err e end.
Notation "'let*' x := e 'in' f" := (bind e (fun x => f))
  (at level 200, x name, e at level 100, f at level 200).
Notation "'let*' ' p := e 'in' f" := (bind e (fun p => f))
  (at level 200, p strict pattern, e at level 100, f at level 200).

Definition is_ok {A} (r : result A) : Prop := exists a, r = Ok a.

(** [mapM f l]: a Python comprehension [(f x for x in l)] where [f] may raise. *)
Fixpoint mapM {A B : Type} (f : A -> result B) (l : list A) : result (list B) :=
  match l with
  | [] => Ok []
  | x :: l' => let* y := f x in let* ys := mapM f l' in Ok (y :: ys)
  end.

(** [foldM f a l]: a Python [for] loop whose body may raise. *)
Fixpoint foldM {A B : Type} (f : A -> B -> result A) (a : A) (l : list B) : result A :=
  match l with
  | [] => Ok a
  | x :: l' => let* a' := f a x in foldM f a' l'
  end.

Lemma bind_Ok_inv {A B} (r : result A) (f : A -> result B) b :
  bind r f = Ok b -> exists a, r = Ok a /\ f a = Ok b.
Proof. destruct r as [a|e]; simpl; intro H; [eauto | discriminate]. Qed.

Lemma mapM_Ok {A B} (f : A -> result B) (g : A -> B) l :
  (forall x, In x l -> f x = Ok (g x)) -> mapM f l = Ok (map g l).
Proof.
  induction l as [|x l IH]; simpl; intros H; [reflexivity|].
  rewrite H by auto. simpl. rewrite IH by auto. reflexivity.
Qed.

Lemma mapM_Ok_inv {A B} (f : A -> result B) l ys :
  mapM f l = Ok ys -> Forall2 (fun x y => f x = Ok y) l ys.
Proof.
  revert ys; induction l as [|x l IH]; simpl; intros ys H.
  - injection H as <-; constructor.
  - destruct (f x) as [y|e] eqn:E; simpl in H; [|discriminate].
    destruct (mapM f l) as [ys'|e]; simpl in H; [|discriminate].
    injection H as <-. constructor; auto.
Qed.

Lemma Forall2_mapM {A B} (f : A -> result B) l ys :
  Forall2 (fun x y => f x = Ok y) l ys -> mapM f l = Ok ys.
Proof.
  induction 1 as [|x y l ys H HF IH]; simpl; [reflexivity|].
  rewrite H; simpl; rewrite IH; reflexivity.
Qed.

Lemma Forall2_length' {A B} (P : A -> B -> Prop) l l' : Forall2 P l l' -> length l = length l'.
Proof. induction 1; simpl; congruence. Qed.

Lemma Forall2_nth' {A B} (P : A -> B -> Prop) l l' k da db :
  Forall2 P l l' -> (k < length l)%nat -> P (nth k l da) (nth k l' db).
Proof.
  intros H; revert k; induction H as [|x y l l' Hxy HF IH]; intros [|k] Hk; simpl in *; try lia; auto.
  apply IH; lia.
Qed.

Lemma Forall2_intro_nth {A B} (P : A -> B -> Prop) l l' da db :
  length l = length l' ->
  (forall k, (k < length l)%nat -> P (nth k l da) (nth k l' db)) -> Forall2 P l l'.
Proof.
  revert l'; induction l as [|x l IH]; intros [|y l'] HL H; simpl in *; try lia; constructor.
  - apply (H 0%nat); lia.
  - apply IH; [lia|]. intros k Hk. apply (H (S k)); lia.
Qed.

(** ** List update at a position (functional version of [l\[k\] = x]). *)
Fixpoint upd {A : Type} (k : nat) (x : A) (l : list A) : list A :=
  match l, k with
  | [], _ => []
  | _ :: l', O => x :: l'
  | y :: l', S k' => y :: upd k' x l'
  end.

Lemma upd_length {A} k (x : A) l : length (upd k x l) = length l.
Proof. revert k; induction l as [|y l IH]; intros [|k]; simpl; auto. Qed.

Lemma nth_upd_same {A} k (x d : A) l : (k < length l)%nat -> nth k (upd k x l) d = x.
Proof. revert k; induction l as [|y l IH]; intros [|k] H; simpl in *; try lia; auto. apply IH; lia. Qed.

Lemma nth_upd_other {A} k j (x d : A) l : j <> k -> nth j (upd k x l) d = nth j l d.
Proof.
  revert k j; induction l as [|y l IH]; intros [|k] [|j] H; simpl; auto; try lia.
Qed.

Lemma upd_upd_same {A} k (x y : A) l : upd k x (upd k y l) = upd k x l.
Proof. revert k; induction l as [|z l IH]; intros [|k]; simpl; auto. f_equal; auto. Qed.

Lemma upd_upd_comm {A} k j (x y : A) l : k <> j -> upd k x (upd j y l) = upd j y (upd k x l).
Proof.
  revert k j; induction l as [|z l IH]; intros [|k] [|j] H; simpl; auto; try lia.
  f_equal; apply IH; lia.
Qed.

Lemma upd_nth_same {A} k (d : A) l : upd k (nth k l d) l = l.
Proof. revert k; induction l as [|z l IH]; intros [|k]; simpl; auto. f_equal; auto. Qed.

Lemma upd_overflow {A} k (x : A) l : (length l <= k)%nat -> upd k x l = l.
Proof. revert k; induction l as [|z l IH]; intros [|k] H; simpl in *; auto; try lia. f_equal; apply IH; lia. Qed.

Lemma list_ext_nth {A} (d : A) l l' :
  length l = length l' -> (forall k, (k < length l)%nat -> nth k l d = nth k l' d) -> l = l'.
Proof.
  revert l'; induction l as [|x l IH]; intros [|y l'] HL H; simpl in *; try lia; auto.
  f_equal; [apply (H 0%nat); lia | apply IH; [lia|]]. intros k Hk; apply (H (S k)); lia.
Qed.

Lemma nth_map_seq {A} (f : nat -> A) n k d : (k < n)%nat -> nth k (map f (seq 0 n)) d = f k.
Proof.
  intros H. rewrite nth_indep with (d' := f 0%nat) by (rewrite map_length, seq_length; lia).
  rewrite map_nth. rewrite seq_nth by lia. reflexivity.
Qed.

Lemma nth_map' {A B} (f : A -> B) l k da db : (k < length l)%nat -> nth k (map f l) db = f (nth k l da).
Proof.
  intros H. rewrite nth_indep with (d' := f da) by (rewrite map_length; lia). apply map_nth.
Qed.

Lemma nth_combine {A B} (l : list A) (l' : list B) k da db :
  length l = length l' -> nth k (combine l l') (da, db) = (nth k l da, nth k l' db).
Proof. intros; apply combine_nth; auto. Qed.

Lemma nth_repeat' {A} (x d : A) n k : (k < n)%nat -> nth k (repeat x n) d = x.
Proof. revert k; induction n as [|n IH]; intros [|k] H; simpl; try lia; auto. apply IH; lia. Qed.

(** ** Finite sums over [0 .. n-1] indexed by integers *)
Fixpoint rsum (n : nat) (f : Z -> R) : R :=
  match n with
  | O => 0%R
  | S m => (rsum m f + f (Z.of_nat m))%R
  end.

Lemma rsum_ext n f g : (forall i, (0 <= i < Z.of_nat n)%Z -> f i = g i) -> rsum n f = rsum n g.
Proof.
  induction n as [|n IH]; intros H; [reflexivity|].
  simpl. rewrite IH by (intros; apply H; lia). rewrite H by lia. reflexivity.
Qed.

Lemma rsum_0 n : rsum n (fun _ => 0%R) = 0%R.
Proof. induction n as [|n IH]; simpl; [reflexivity|]. rewrite IH; lra. Qed.

Lemma rsum_const n c : rsum n (fun _ => c) = (INR n * c)%R.
Proof. induction n as [|n IH]; [simpl; lra|]. rewrite S_INR. simpl rsum. rewrite IH; lra. Qed.

Lemma rsum_plus n f g : rsum n (fun i => f i + g i)%R = (rsum n f + rsum n g)%R.
Proof. induction n as [|n IH]; simpl; [lra|]. rewrite IH; lra. Qed.

Lemma rsum_minus n f g : rsum n (fun i => f i - g i)%R = (rsum n f - rsum n g)%R.
Proof. induction n as [|n IH]; simpl; [lra|]. rewrite IH; lra. Qed.

Lemma rsum_opp n f : rsum n (fun i => - f i)%R = (- rsum n f)%R.
Proof. induction n as [|n IH]; simpl; [lra|]. rewrite IH; lra. Qed.

Lemma rsum_scal n c f : rsum n (fun i => c * f i)%R = (c * rsum n f)%R.
Proof. induction n as [|n IH]; simpl; [lra|]. rewrite IH; lra. Qed.

Lemma rsum_scal_r n c f : rsum n (fun i => f i * c)%R = (rsum n f * c)%R.
Proof. induction n as [|n IH]; simpl; [lra|]. rewrite IH; lra. Qed.

Lemma rsum_swap n m (f : Z -> Z -> R) :
  rsum n (fun i => rsum m (fun j => f i j)) = rsum m (fun j => rsum n (fun i => f i j)).
Proof.
  induction n as [|n IH]; simpl.
  - rewrite rsum_0; reflexivity.
  - rewrite IH, <- rsum_plus. reflexivity.
Qed.

Lemma rsum_le n f g : (forall i, (0 <= i < Z.of_nat n)%Z -> (f i <= g i)%R) -> (rsum n f <= rsum n g)%R.
Proof.
  induction n as [|n IH]; intros H; [simpl; lra|].
  simpl. apply Rplus_le_compat; [apply IH; intros; apply H; lia | apply H; lia].
Qed.

Lemma rsum_nonneg n f : (forall i, (0 <= i < Z.of_nat n)%Z -> (0 <= f i)%R) -> (0 <= rsum n f)%R.
Proof. intros H. rewrite <- (rsum_0 n). apply rsum_le; auto. Qed.

Lemma rsum_nonneg_0 n f : (forall i, (0 <= i < Z.of_nat n)%Z -> (0 <= f i)%R) -> rsum n f = 0%R ->
  forall i, (0 <= i < Z.of_nat n)%Z -> f i = 0%R.
Proof.
  induction n as [|n IH]; intros H H0 i Hi; [lia|].
  simpl in H0.
  assert (Hn : (0 <= rsum n f)%R) by (apply rsum_nonneg; intros; apply H; lia).
  assert (Hl : (0 <= f (Z.of_nat n))%R) by (apply H; lia).
  destruct (Z.eq_dec i (Z.of_nat n)) as [->|Hne]; [lra|].
  apply IH; [intros; apply H; lia | lra | lia].
Qed.

Lemma rsum_split n m f : rsum (n + m) f = (rsum n f + rsum m (fun i => f (i + Z.of_nat n)%Z))%R.
Proof.
  induction m as [|m IH]; [rewrite Nat.add_0_r; simpl; lra|].
  rewrite Nat.add_succ_r. simpl. rewrite IH.
  replace (Z.of_nat m + Z.of_nat n)%Z with (Z.of_nat (n + m)) by lia. lra.
Qed.

Lemma rsum_S_l n f : rsum (S n) f = (f 0%Z + rsum n (fun i => f (i + 1)%Z))%R.
Proof. change (S n) with (1 + n)%nat. rewrite rsum_split. simpl. lra. Qed.

(** Reversal of the summation order. *)
Lemma rsum_rev n f : rsum n f = rsum n (fun i => f (Z.of_nat n - 1 - i)%Z).
Proof.
  induction n as [|n IH]; [reflexivity|].
  rewrite (rsum_S_l n (fun i => f (Z.of_nat (S n) - 1 - i)%Z)).
  change (rsum (S n) f) with (rsum n f + f (Z.of_nat n))%R.
  rewrite IH. rewrite Rplus_comm. f_equal.
  - f_equal; lia.
  - apply rsum_ext; intros i Hi. f_equal; lia.
Qed.

Lemma rsum_telescope n f : rsum n (fun i => f (i + 1)%Z - f i)%R = (f (Z.of_nat n) - f 0%Z)%R.
Proof.
  induction n as [|n IH]; [simpl; lra|].
  simpl rsum. rewrite IH.
  replace (Z.of_nat n + 1)%Z with (Z.of_nat (S n)) by lia. lra.
Qed.

(** Single nonzero term *)
Lemma rsum_single n f k : (0 <= k < Z.of_nat n)%Z ->
  (forall i, (0 <= i < Z.of_nat n)%Z -> i <> k -> f i = 0%R) -> rsum n f = f k.
Proof.
  induction n as [|n IH]; intros Hk H; [lia|].
  simpl. destruct (Z.eq_dec k (Z.of_nat n)) as [->|Hne].
  - rewrite (@rsum_ext n f (fun _ => 0%R)) by (intros; apply H; lia). rewrite rsum_0; lra.
  - rewrite IH by (try lia; intros; apply H; lia). rewrite (H (Z.of_nat n)) by lia. lra.
Qed.

(** Invariance of a full-period sum under a cyclic shift of the summand. *)
Lemma rsum_mod_shift1 n f : (0 < n)%nat ->
  rsum n (fun i => f ((i + 1) mod Z.of_nat n)%Z) = rsum n f.
Proof.
  intros Hn. destruct n as [|n]; [lia|].
  rewrite (rsum_S_l n f).
  simpl rsum at 1. rewrite Rplus_comm. f_equal.
  - f_equal. replace (Z.of_nat n + 1)%Z with (Z.of_nat (S n)) by lia. apply Z.mod_same; lia.
  - apply rsum_ext; intros i Hi. f_equal. apply Z.mod_small; lia.
Qed.

Lemma rsum_mod_shift_nat n k f : (0 < n)%nat ->
  rsum n (fun i => f ((i + Z.of_nat k) mod Z.of_nat n)%Z) = rsum n f.
Proof.
  intros Hn. revert f; induction k as [|k IH]; intros f.
  - apply rsum_ext; intros i Hi. f_equal. rewrite Z.add_0_r. apply Z.mod_small; lia.
  - rewrite <- (IH f). rewrite <- (rsum_mod_shift1 (fun i => f ((i + Z.of_nat k) mod Z.of_nat n)%Z) Hn).
    apply rsum_ext; intros i Hi. f_equal.
    rewrite Zplus_mod_idemp_l. f_equal; lia.
Qed.

Lemma rsum_mod_shift n k f : (0 < n)%nat ->
  rsum n (fun i => f ((i + k) mod Z.of_nat n)%Z) = rsum n f.
Proof.
  intros Hn. rewrite <- (@rsum_mod_shift_nat n (Z.to_nat (k mod Z.of_nat n)) f Hn).
  apply rsum_ext; intros i Hi. f_equal.
  rewrite Z2Nat.id by (apply Z.mod_pos_bound; lia).
  rewrite Zplus_mod_idemp_r. reflexivity.
Qed.
