(** * N-dimensional arrays.

    Stands for the jnp/np arrays used throughout /repo: a shape (one natural
    number per axis) and an index function.  Only indices that are in range
    ([inb]) are meaningful; [aeq] is the equality of arrays.  The data type is
    a parameter. *)
From Verif Require Import Prelude.
Set Implicit Arguments.

Record arr (A : Type) := mkarr { shp : list nat; get : list Z -> A }.
Arguments mkarr {A} _ _.
Arguments shp {A} _.
Arguments get {A} _ _.

(** [inb s ix]: [ix] is an in-range index of an array of shape [s]. *)
Fixpoint inb (s : list nat) (ix : list Z) : Prop :=
  match s, ix with
  | [], [] => True
  | n :: s', i :: ix' => (0 <= i < Z.of_nat n)%Z /\ inb s' ix'
  | _, _ => False
  end.

Definition aeq {A} (a b : arr A) : Prop :=
  shp a = shp b /\ forall ix, inb (shp a) ix -> get a ix = get b ix.

(** [wrap s ix]: every coordinate reduced modulo the size of its axis. *)
Fixpoint wrap (s : list nat) (ix : list Z) : list Z :=
  match s, ix with
  | n :: s', i :: ix' => (i mod Z.of_nat n)%Z :: wrap s' ix'
  | _, _ => []
  end.

(** [axmap ax n' h a]: apply the 1-d array transformation [h] to every line
    of [a] along axis [ax]; the axis gets length [n']. *)
Definition axmap {A B} (ax n' : nat) (h : (Z -> A) -> Z -> B) (a : arr A) : arr B :=
  mkarr (upd ax n' (shp a))
        (fun ix => h (fun i => get a (upd ax i ix)) (nth ax ix 0%Z)).

Definition amap {A B} (f : A -> B) (a : arr A) : arr B := mkarr (shp a) (fun ix => f (get a ix)).
Definition amap2 {A B C} (f : A -> B -> C) (a : arr A) (b : arr B) : arr C :=
  mkarr (shp a) (fun ix => f (get a ix) (get b ix)).
Definition afull {A} (s : list nat) (x : A) : arr A := mkarr s (fun _ => x).

(** Sum of all entries ([jnp.sum]). *)
Fixpoint asum (s : list nat) (f : list Z -> R) : R :=
  match s with
  | [] => f []
  | n :: s' => rsum n (fun i => asum s' (fun ix => f (i :: ix)))
  end.
Definition total (a : arr R) : R := asum (shp a) (get a).

Definition allpos (s : list nat) : Prop := Forall (fun n => (0 < n)%nat) s.

(** Number of entries. *)
Definition asize (s : list nat) : nat := fold_right Nat.mul 1%nat s.

(** Index addition along one axis. *)
Definition shiftix (ax : nat) (k : Z) (ix : list Z) : list Z := upd ax (nth ax ix 0 + k)%Z ix.

(** ** Basic facts *)
Lemma aeq_refl {A} (a : arr A) : aeq a a.
Proof. split; auto. Qed.
Lemma aeq_sym {A} (a b : arr A) : aeq a b -> aeq b a.
Proof. intros [H1 H2]; split; auto. intros ix Hi; symmetry; apply H2; rewrite H1; auto. Qed.
Lemma aeq_trans {A} (a b c : arr A) : aeq a b -> aeq b c -> aeq a c.
Proof.
  intros [H1 H2] [H3 H4]; split; [congruence|].
  intros ix Hi; rewrite H2 by auto; apply H4; rewrite <- H1; auto.
Qed.

Lemma inb_length s ix : inb s ix -> length ix = length s.
Proof. revert ix; induction s as [|n s IH]; intros [|i ix] H; simpl in *; try tauto. f_equal; apply IH; tauto. Qed.

Lemma inb_nth s ix k : inb s ix -> (k < length s)%nat -> (0 <= nth k ix 0 < Z.of_nat (nth k s 0%nat))%Z.
Proof.
  revert ix k; induction s as [|n s IH]; intros [|i ix] [|k] H Hk; simpl in *; try tauto; try lia.
  apply IH; [tauto | lia].
Qed.

Lemma inb_intro s ix : length ix = length s ->
  (forall k, (k < length s)%nat -> (0 <= nth k ix 0 < Z.of_nat (nth k s 0%nat))%Z) -> inb s ix.
Proof.
  revert ix; induction s as [|n s IH]; intros [|i ix] HL H; simpl in *; try lia; auto.
  split; [apply (H 0%nat); lia|]. apply IH; [lia|]. intros k Hk; apply (H (S k)); lia.
Qed.

Lemma inb_upd s ix ax i n : inb s ix -> (0 <= i < Z.of_nat n)%Z -> inb (upd ax n s) (upd ax i ix).
Proof.
  revert ix ax; induction s as [|m s IH]; intros [|j ix] [|ax] H Hi; simpl in *; try tauto.
  split; [tauto|]. apply IH; tauto.
Qed.

Lemma inb_upd_same s ix ax i : inb s ix -> (0 <= i < Z.of_nat (nth ax s 0%nat))%Z -> inb s (upd ax i ix).
Proof.
  revert ix ax; induction s as [|m s IH]; intros [|j ix] [|ax] H Hi; simpl in *; try tauto.
  split; [tauto|]. apply IH; tauto.
Qed.

Lemma inb_upd_inv s ix ax n : inb (upd ax n s) ix -> (ax < length s)%nat ->
  forall i, (0 <= i < Z.of_nat (nth ax s 0%nat))%Z -> inb s (upd ax i ix).
Proof.
  revert ix ax; induction s as [|m s IH]; intros [|j ix] [|ax] H Hax i Hi; simpl in *; try tauto; try lia.
  split; [tauto|]. eapply IH; [apply H | lia | auto].
Qed.

Lemma wrap_length s ix : length ix = length s -> length (wrap s ix) = length s.
Proof. revert ix; induction s as [|n s IH]; intros [|i ix] H; simpl in *; auto; lia. Qed.

Lemma wrap_nth s ix k : length ix = length s -> (k < length s)%nat ->
  nth k (wrap s ix) 0%Z = (nth k ix 0 mod Z.of_nat (nth k s 0%nat))%Z.
Proof.
  revert ix k; induction s as [|n s IH]; intros [|i ix] [|k] H Hk; simpl in *; try lia; auto.
  apply IH; lia.
Qed.

Lemma allpos_nth s k : allpos s -> (k < length s)%nat -> (0 < nth k s 0%nat)%nat.
Proof. intros H Hk. unfold allpos in H. rewrite Forall_forall in H. apply H. apply nth_In; auto. Qed.

Lemma inb_wrap s ix : allpos s -> length ix = length s -> inb s (wrap s ix).
Proof.
  intros Hp HL. apply inb_intro; [apply wrap_length; auto|].
  intros k Hk. rewrite wrap_nth by auto.
  apply Z.mod_pos_bound. pose proof (allpos_nth Hp Hk); lia.
Qed.

Lemma wrap_inb s ix : inb s ix -> wrap s ix = ix.
Proof.
  revert ix; induction s as [|n s IH]; intros [|i ix] H; simpl in *; try tauto.
  destruct H as [H1 H2]. rewrite Z.mod_small by lia. rewrite IH by auto; reflexivity.
Qed.

Lemma inb_allpos s ix : inb s ix -> allpos s.
Proof.
  revert ix; induction s as [|n s IH]; intros [|i ix] H; simpl in *; try tauto; constructor.
  - lia.
  - apply (IH ix); tauto.
Qed.

Lemma wrap_wrap s ix : length ix = length s -> wrap s (wrap s ix) = wrap s ix.
Proof.
  revert ix; induction s as [|n s IH]; intros [|i ix] H; simpl in *; auto; try lia.
  rewrite IH by lia. f_equal.
  destruct n; [rewrite !Zmod_0_r; reflexivity | apply Z.mod_mod; lia].
Qed.

Lemma wrap_upd s ix ax i : length ix = length s ->
  wrap s (upd ax i ix) = upd ax (i mod Z.of_nat (nth ax s 0%nat))%Z (wrap s ix).
Proof.
  revert ix ax; induction s as [|n s IH]; intros [|j ix] [|ax] H; simpl in *; auto; try lia.
  rewrite IH by lia. reflexivity.
Qed.

Lemma wrap_upd_wrap s ix ax i : length ix = length s ->
  wrap s (upd ax i (wrap s ix)) = wrap s (upd ax i ix).
Proof.
  intros H. rewrite !wrap_upd by (auto; rewrite wrap_length; auto).
  rewrite wrap_wrap by auto. reflexivity.
Qed.

Lemma shiftix_length ax k ix : length (shiftix ax k ix) = length ix.
Proof. apply upd_length. Qed.

Lemma shiftix_0 ax ix : shiftix ax 0 ix = ix.
Proof. unfold shiftix. rewrite Z.add_0_r. apply upd_nth_same. Qed.

Lemma shiftix_overflow ax k ix : (length ix <= ax)%nat -> shiftix ax k ix = ix.
Proof. intros; apply upd_overflow; auto. Qed.

Lemma shiftix_add ax k l ix : shiftix ax k (shiftix ax l ix) = shiftix ax (k + l) ix.
Proof.
  destruct (Nat.lt_ge_cases ax (length ix)) as [H|H].
  - unfold shiftix. rewrite nth_upd_same by auto. rewrite upd_upd_same. f_equal; lia.
  - rewrite !shiftix_overflow; auto; rewrite ?shiftix_overflow; auto.
Qed.

Lemma shiftix_comm ax bx k l ix : shiftix ax k (shiftix bx l ix) = shiftix bx l (shiftix ax k ix).
Proof.
  destruct (Nat.eq_dec ax bx) as [->|Hne].
  - rewrite !shiftix_add. f_equal; lia.
  - unfold shiftix. rewrite !nth_upd_other by auto. apply upd_upd_comm; auto.
Qed.

Lemma wrap_shiftix_wrap s ax k ix : length ix = length s ->
  wrap s (shiftix ax k (wrap s ix)) = wrap s (shiftix ax k ix).
Proof.
  intros H. destruct (Nat.lt_ge_cases ax (length s)) as [Ha|Ha].
  - unfold shiftix. rewrite wrap_upd_wrap by auto. rewrite !wrap_upd by auto. f_equal.
    rewrite wrap_nth by auto.
    destruct (nth ax s 0%nat) eqn:E; [rewrite !Zmod_0_r; reflexivity|].
    apply Zplus_mod_idemp_l.
  - rewrite !shiftix_overflow by (rewrite ?wrap_length; lia). apply wrap_wrap; auto.
Qed.

(** ** Sums over arrays *)
Lemma asum_ext s f g : (forall ix, inb s ix -> f ix = g ix) -> asum s f = asum s g.
Proof.
  revert f g; induction s as [|n s IH]; intros f g H; simpl.
  - apply H; simpl; auto.
  - apply rsum_ext; intros i Hi. apply IH; intros ix Hix. apply H; simpl; auto.
Qed.

Lemma asum_plus s f g : asum s (fun ix => f ix + g ix)%R = (asum s f + asum s g)%R.
Proof.
  revert f g; induction s as [|n s IH]; intros f g; simpl; [reflexivity|].
  rewrite <- rsum_plus. apply rsum_ext; intros; apply IH.
Qed.

Lemma asum_minus s f g : asum s (fun ix => f ix - g ix)%R = (asum s f - asum s g)%R.
Proof.
  revert f g; induction s as [|n s IH]; intros f g; simpl; [reflexivity|].
  rewrite <- rsum_minus. apply rsum_ext; intros; apply IH.
Qed.

Lemma asum_scal s c f : asum s (fun ix => c * f ix)%R = (c * asum s f)%R.
Proof.
  revert f; induction s as [|n s IH]; intros f; simpl; [reflexivity|].
  rewrite <- rsum_scal. apply rsum_ext; intros; apply IH.
Qed.

Lemma asum_scal_r s c f : asum s (fun ix => f ix * c)%R = (asum s f * c)%R.
Proof.
  rewrite Rmult_comm, <- asum_scal. apply asum_ext; intros; ring.
Qed.

Lemma asum_opp s f : asum s (fun ix => - f ix)%R = (- asum s f)%R.
Proof.
  revert f; induction s as [|n s IH]; intros f; simpl; [reflexivity|].
  rewrite <- rsum_opp. apply rsum_ext; intros; apply IH.
Qed.

Lemma asum_0 s : asum s (fun _ => 0%R) = 0%R.
Proof.
  induction s as [|n s IH]; simpl; [reflexivity|].
  rewrite IH. apply rsum_0.
Qed.

Lemma asum_const s c : asum s (fun _ => c) = (INR (asize s) * c)%R.
Proof.
  induction s as [|n s IH]; simpl asum; [simpl; ring|].
  rewrite IH, rsum_const. simpl asize. rewrite mult_INR. ring.
Qed.

Lemma asum_le s f g : (forall ix, inb s ix -> (f ix <= g ix)%R) -> (asum s f <= asum s g)%R.
Proof.
  revert f g; induction s as [|n s IH]; intros f g H; simpl.
  - apply H; simpl; auto.
  - apply rsum_le; intros i Hi. apply IH; intros ix Hix. apply H; simpl; auto.
Qed.

Lemma asum_nonneg s f : (forall ix, inb s ix -> (0 <= f ix)%R) -> (0 <= asum s f)%R.
Proof. intros H. rewrite <- (asum_0 s). apply asum_le; auto. Qed.

Lemma asum_nonneg_0 s f : (forall ix, inb s ix -> (0 <= f ix)%R) -> asum s f = 0%R ->
  forall ix, inb s ix -> f ix = 0%R.
Proof.
  revert f; induction s as [|n s IH]; intros f H H0 [|i ix] Hix; simpl in *; try tauto.
  destruct Hix as [Hi Hix].
  apply (IH (fun ix => f (i :: ix))); auto.
  - apply (rsum_nonneg_0 n (fun i => asum s (fun ix => f (i :: ix)))); auto.
    intros j Hj. apply asum_nonneg; intros; apply H; auto.
Qed.

(** Cyclic shift along one axis does not change a sum over the whole array. *)
Lemma asum_shift s ax k f : (ax < length s)%nat -> (0 < nth ax s 0%nat)%nat ->
  asum s (fun ix => f (upd ax ((nth ax ix 0 + k) mod Z.of_nat (nth ax s 0%nat))%Z ix)) = asum s f.
Proof.
  revert ax f; induction s as [|n s IH]; intros [|ax] f Ha Hp; simpl in *; try lia.
  - apply (rsum_mod_shift k (fun i => asum s (fun ix => f (i :: ix)))); auto.
  - apply rsum_ext; intros i Hi.
    apply (IH ax (fun ix => f (i :: ix))); [lia | auto].
Qed.

(** The same, for functions on all integer indices that are periodic. *)
Definition periodic (s : list nat) (F : list Z -> R) : Prop :=
  forall ix, length ix = length s -> F (wrap s ix) = F ix.

Lemma asum_shift_periodic s ax k F : allpos s -> periodic s F ->
  asum s (fun ix => F (shiftix ax k ix)) = asum s F.
Proof.
  intros Hp HF. destruct (Nat.lt_ge_cases ax (length s)) as [Ha|Ha].
  - rewrite <- (asum_shift s k F Ha (allpos_nth Hp Ha)).
    apply asum_ext; intros ix Hix.
    pose proof (inb_length _ _ Hix) as HL.
    rewrite <- (HF (shiftix ax k ix)) by (rewrite shiftix_length; auto).
    unfold shiftix. rewrite wrap_upd by auto. rewrite (wrap_inb _ _ Hix). reflexivity.
  - apply asum_ext; intros ix Hix. rewrite shiftix_overflow; auto.
    rewrite (inb_length _ _ Hix); auto.
Qed.

Lemma periodic_shift s ax k F : periodic s F -> periodic s (fun ix => F (shiftix ax k ix)).
Proof.
  intros HF ix HL.
  rewrite <- (HF (shiftix ax k (wrap s ix))) by (rewrite shiftix_length, wrap_length; auto).
  rewrite wrap_shiftix_wrap by auto.
  apply HF. rewrite shiftix_length; auto.
Qed.

(** Sum over the array, one line along [ax] at a time: enough for telescoping along non-periodic axes. *)
Lemma asum_axis s ax f : (ax < length s)%nat ->
  asum s f = asum (upd ax 1%nat s) (fun ix => rsum (nth ax s 0%nat) (fun i => f (upd ax i ix))).
Proof.
  revert ax f; induction s as [|n s IH]; intros [|ax] f Ha; simpl in *; try lia.
  - rewrite Rplus_0_l. clear IH Ha. revert f.
    induction n as [|n IHn]; intros f; simpl; [rewrite asum_0; reflexivity|].
    rewrite IHn, <- asum_plus. reflexivity.
  - apply rsum_ext; intros i Hi. rewrite (IH ax) by lia. reflexivity.
Qed.

(** ** Decidable in-range test, used by executable examples. *)
Fixpoint inbb (s : list nat) (ix : list Z) : bool :=
  match s, ix with
  | [], [] => true
  | n :: s', i :: ix' => (0 <=? i)%Z && (i <? Z.of_nat n)%Z && inbb s' ix'
  | _, _ => false
  end.

Lemma inbb_spec s ix : inbb s ix = true <-> inb s ix.
Proof.
  revert ix; induction s as [|n s IH]; intros [|i ix]; simpl; try (split; intros; (tauto || discriminate)).
  rewrite !andb_true_iff, Z.leb_le, Z.ltb_lt, IH. tauto.
Qed.
