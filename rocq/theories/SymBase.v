(** * Copies of functions of the cells: how the difference operators act on them *)
From Coq Require Import Permutation.
From Verif Require Import Prelude NdArr Grids_model Spec Boundaries_model BoundariesPeriodic FD_model PRep FDProofs FDProps Interp_model InterpProofs QRProps AdvectionProofs AdvectionProps EquationsMoreProps SpecSym.
Set Implicit Arguments.
Local Open Scope Z_scope.

Lemma lsum_perm l l' : Permutation l l' -> lsum l = lsum l'.
Proof. induction 1; simpl; try lra; congruence. Qed.
Lemma perm_seq n f : (forall a, (a < n)%nat -> (f a < n)%nat) -> (forall a b, (a < n)%nat -> (b < n)%nat -> f a = f b -> a = b) -> Permutation (seq 0 n) (map f (seq 0 n)).
Proof.
  intros Hf Hi. symmetry. apply NoDup_Permutation_bis.
  - clear Hf. assert (H : forall l, NoDup l -> (forall a, In a l -> (a < n)%nat) -> NoDup (map f l)).
    { induction l as [|x l IH]; intros Hn Hl; [constructor|]. inversion Hn as [|? ? Hx Hn']; subst. cbn [map]. constructor; [|apply IH; auto; intros; apply Hl; right; auto].
      intros Hin. apply in_map_iff in Hin. destruct Hin as (y & E & Hy). apply Hx. rewrite <- (Hi y x); auto; apply Hl; [right; auto | left; auto]. }
    apply H; [apply seq_NoDup|]. intros a Ha. apply in_seq in Ha. lia.
  - rewrite map_length. auto.
  - intros x Hx. apply in_map_iff in Hx. destruct Hx as (a & <- & Ha). apply in_seq in Ha. apply in_seq. specialize (Hf a). lia.
Qed.
Lemma nsum_perm n f F : (forall a, (a < n)%nat -> (f a < n)%nat) -> (forall a b, (a < n)%nat -> (b < n)%nat -> f a = f b -> a = b) ->
  nsum n (fun a => F (f a)) = nsum n F.
Proof. intros Hf Hi. unfold nsum. rewrite <- (map_map f F). apply lsum_perm. apply Permutation_map. symmetry. apply perm_seq; auto. Qed.

(** ** interpolation in any order *)
Lemma lerp_axis_comm a b d e F ix : lerp_axis a d (lerp_axis b e F) ix = lerp_axis b e (lerp_axis a d F) ix.
Proof. unfold lerp_axis. rewrite !(shiftix_comm b a). ring. Qed.
Definition lerpL (d : nat -> Q) (l : list nat) (F : list Z -> R) : list Z -> R := fold_right (fun a acc => lerp_axis a (d a) acc) F l.
Lemma lerpL_perm (s : list nat) d F l l' : Permutation l l' -> forall ix, length ix = length s -> lerpL d l F ix = lerpL d l' F ix.
Proof.
  intros H. induction H; intros ix Hix; simpl.
  - reflexivity.
  - apply (@lerp_axis_ext s); auto.
  - apply lerp_axis_comm.
  - rewrite IHPermutation1 by auto. apply IHPermutation2; auto.
Qed.
Lemma lerp_lerpL n o o' F : lerp n o o' F = lerpL (fun a => nth a o' 0 - nth a o 0)%Q (rev (seq 0 n)) F.
Proof. induction n as [|n IH]; [reflexivity|]. rewrite seq_S, rev_app_distr. cbn [rev app lerp lerpL fold_right Nat.add]. rewrite IH. reflexivity. Qed.

(** ** the cell under a cell *)
Section Under.
Variables (n : nat) (p : placement).
Hypothesis Hp : relabelling n p.
Lemma under_length ix : length (under n p ix) = n.
Proof. unfold under. rewrite map_length, seq_length. reflexivity. Qed.
Lemma under_nth ix b : (b < n)%nat -> nth b (under n p ix) 0 = nth (of_axis p b) ix 0 - moved_by p b.
Proof. intros Hb. unfold under. rewrite nth_map_seq by auto. reflexivity. Qed.
Lemma to_inj a b : (a < n)%nat -> (b < n)%nat -> to_axis p a = to_axis p b -> a = b.
Proof. intros Ha Hb E. destruct (Hp Ha) as (_ & _ & <- & _). destruct (Hp Hb) as (_ & _ & <- & _). congruence. Qed.
Lemma under_shift a j ix : (a < n)%nat -> length ix = n -> under n p (shiftix a j ix) = shiftix (to_axis p a) j (under n p ix).
Proof.
  intros Ha HL. destruct (Hp Ha) as (A1 & A2 & A3 & A4).
  apply (list_ext_nth 0); rewrite ?shiftix_length, !under_length; auto. intros b Hb. rewrite under_nth by auto. destruct (Hp Hb) as (B1 & B2 & B3 & B4).
  unfold shiftix. destruct (Nat.eq_dec b (to_axis p a)) as [->|Hne].
  - rewrite A3. rewrite nth_upd_same by lia. rewrite nth_upd_same by (rewrite under_length; auto). rewrite under_nth, A3 by auto. lia.
  - rewrite nth_upd_other by congruence. rewrite nth_upd_other by congruence. rewrite under_nth by auto. reflexivity.
Qed.
Lemma under_wrap s s' ix : length s = n -> length s' = n -> (forall a, (a < n)%nat -> nth a s' 0%nat = nth (to_axis p a) s 0%nat) -> length ix = n ->
  wrap s (under n p (wrap s' ix)) = wrap s (under n p ix).
Proof.
  intros Hs Hs' H HL. apply (list_ext_nth 0); rewrite !wrap_length by (rewrite under_length; auto); auto. intros b Hb. rewrite Hs in Hb.
  rewrite !wrap_nth by (rewrite ?under_length; lia). rewrite !under_nth by auto. destruct (Hp Hb) as (B1 & B2 & B3 & B4).
  rewrite wrap_nth by lia. rewrite H, B4 by auto. apply Zminus_mod_idemp_l.
Qed.
Lemma under_periodic s s' F : length s = n -> length s' = n -> (forall a, (a < n)%nat -> nth a s' 0%nat = nth (to_axis p a) s 0%nat) ->
  periodic s F -> periodic s' (fun ix => F (under n p ix)).
Proof.
  intros Hs Hs' H HF ix HL. rewrite <- (HF (under n p (wrap s' ix))) by (rewrite under_length; auto). rewrite (@under_wrap s s' ix Hs Hs' H) by lia.
  apply HF. rewrite under_length; auto.
Qed.
End Under.

Section Sym.
Variables (g g' : grid) (p : placement) (s : R).
Hypothesis (Hg : copied_grid p s g g') (Hs : (0 < s)%R) (Hw : wfg g).
Let n := gndim g.
Local Notation rel := (copied_values n p).
Let Hn : gndim g' = n := proj1 Hg.
Let Hp : relabelling n p := proj1 (proj2 Hg).

Lemma sym_h a : (a < n)%nat -> hstep g' a = (s * hstep g (to_axis p a))%R.
Proof. intros Ha. apply (proj2 (proj2 Hg) a Ha). Qed.
Lemma sym_sh a : (a < n)%nat -> nth a (gshape g') 0%nat = nth (to_axis p a) (gshape g) 0%nat.
Proof. intros Ha. apply (proj2 (proj2 Hg) a Ha). Qed.
Lemma sym_h0 b : (b < n)%nat -> hstep g b <> 0%R.
Proof. intros Hb. destruct Hw as (H1 & _ & _ & H2). rewrite Forall_forall in H2. apply H2. unfold hstep. apply nth_In. unfold n in Hb. lia. Qed.
Lemma sym_periodic F : periodic (gshape g) F -> periodic (gshape g') (fun ix => F (under n p ix)).
Proof. intros H. apply (@under_periodic n p Hp (gshape g)); auto. exact sym_sh. Qed.
Lemma to_lt a : (a < n)%nat -> (to_axis p a < n)%nat.
Proof. intros Ha. apply (Hp Ha). Qed.

Lemma rel_eq m m' F F' : m = m' -> rel m F F' -> rel m' F F'.
Proof. intros ->; auto. Qed.
Lemma rel_ext m F G F' G' : (forall ix, length ix = n -> F ix = G ix) -> (forall ix, length ix = n -> F' ix = G' ix) -> rel m F F' -> rel m G G'.
Proof. intros A B H ix HL. rewrite <- B by auto. rewrite (H ix HL). rewrite A by apply under_length. reflexivity. Qed.
Lemma rel_shift m F F' a j : (a < n)%nat -> rel m F F' -> rel m (fun ix => F (shiftix (to_axis p a) j ix)) (fun ix => F' (shiftix a j ix)).
Proof. intros Ha H ix HL. cbv beta. rewrite (H (shiftix a j ix)) by (rewrite shiftix_length; auto). rewrite (under_shift Hp j ix Ha HL). reflexivity. Qed.
Lemma rel_plus m F F' G G' : rel m F F' -> rel m G G' -> rel m (fun ix => F ix + G ix)%R (fun ix => F' ix + G' ix)%R.
Proof. intros A B ix HL. rewrite (A ix HL), (B ix HL). ring. Qed.
Lemma rel_minus m F F' G G' : rel m F F' -> rel m G G' -> rel m (fun ix => F ix - G ix)%R (fun ix => F' ix - G' ix)%R.
Proof. intros A B ix HL. rewrite (A ix HL), (B ix HL). ring. Qed.
Lemma rel_mult m m' F F' G G' : rel m F F' -> rel m' G G' -> rel (m * m') (fun ix => F ix * G ix)%R (fun ix => F' ix * G' ix)%R.
Proof. intros A B ix HL. rewrite (A ix HL), (B ix HL). ring. Qed.
Lemma rel_opp m F F' : rel m F F' -> rel m (fun ix => - F ix)%R (fun ix => - F' ix)%R.
Proof. intros A ix HL. rewrite (A ix HL). ring. Qed.
Lemma rel_fdF m F F' a : (a < n)%nat -> rel m F F' -> rel (m / s) (fdF g (to_axis p a) F) (fdF g' a F').
Proof.
  intros Ha H ix HL. unfold fdF. rewrite (rel_shift 1 Ha H) by auto. rewrite (H ix HL), sym_h by auto.
  pose proof (@sym_h0 _ (to_lt Ha)). field. split; lra.
Qed.
Lemma rel_bdF m F F' a : (a < n)%nat -> rel m F F' -> rel (m / s) (bdF g (to_axis p a) F) (bdF g' a F').
Proof.
  intros Ha H ix HL. unfold bdF. rewrite (rel_shift (-1) Ha H) by auto. rewrite (H ix HL), sym_h by auto.
  pose proof (@sym_h0 _ (to_lt Ha)). field. split; lra.
Qed.
Lemma rel_divF m Fs Fs' : (forall i, (i < n)%nat -> rel m (Fs (to_axis p i)) (Fs' i)) -> rel (m / s) (divF g Fs) (divF g' Fs').
Proof.
  intros H ix HL. unfold divF. rewrite Hn. fold n. rewrite <- (@nsum_perm n (to_axis p) (fun i => bdF g i (Fs i) (under n p ix))); [|exact to_lt | intros; apply (to_inj Hp); auto].
  rewrite <- nsum_scal. apply nsum_ext. intros i Hi. apply (rel_bdF Hi (H i Hi)). exact HL.
Qed.
Lemma rel_lapF m F F' : rel m F F' -> rel (m / (s * s)) (lapF g F) (lapF g' F').
Proof.
  intros H. apply rel_ext with (F := divF g (fun i => fdF g i F)) (F' := divF g' (fun i => fdF g' i F')).
  - intros; symmetry; apply lapF_is_div_grad.
  - intros; symmetry; apply lapF_is_div_grad.
  - apply (@rel_eq (m / s / s)); [field; lra|]. apply rel_divF. intros i Hi. apply rel_fdF; auto.
Qed.
Lemma rel_lerp_axis m F F' a d d' : (a < n)%nat -> (d == d')%Q -> rel m F F' -> rel m (lerp_axis (to_axis p a) d F) (lerp_axis a d' F').
Proof.
  intros Ha E H ix HL. rewrite (@lerp_axis_comp a d' d) by (symmetry; exact E). unfold lerp_axis.
  rewrite (rel_shift (Qfloor d) Ha H) by auto. rewrite (rel_shift (Qfloor d + 1) Ha H) by auto. ring.
Qed.
Lemma rel_lerp m F F' o1 o2 o1' o2' : (forall a, (a < n)%nat -> (nth a o2' 0 - nth a o1' 0 == nth (to_axis p a) o2 0 - nth (to_axis p a) o1 0)%Q) ->
  rel m F F' -> rel m (lerp n o1 o2 F) (lerp n o1' o2' F').
Proof.
  intros Ho H. rewrite !lerp_lerpL. set (d := fun a => (nth a o2 0 - nth a o1 0)%Q). set (d' := fun a => (nth a o2' 0 - nth a o1' 0)%Q).
  assert (G : forall l, (forall a, In a l -> (a < n)%nat) -> rel m (lerpL d (map (to_axis p) l) F) (lerpL d' l F')).
  { induction l as [|a l IH]; intros Hl; [exact H|]. cbn [map lerpL fold_right]. apply rel_lerp_axis; [apply Hl; left; auto | | apply IH; intros; apply Hl; right; auto].
    unfold d, d'. symmetry. apply Ho. apply Hl. left; auto. }
  apply rel_ext with (3 := G (rev (seq 0 n)) ltac:(intros a Ha; apply in_rev, in_seq in Ha; lia)); [|reflexivity].
  intros ix HL. apply (@lerpL_perm (gshape g)); [|exact HL].
  rewrite map_rev. apply Permutation_trans with (map (to_axis p) (seq 0 n)); [symmetry; apply Permutation_rev|].
  apply Permutation_trans with (seq 0 n); [|apply Permutation_rev].
  symmetry. apply perm_seq; [exact to_lt | intros; apply (to_inj Hp); auto].
Qed.

(** Uniqueness of gradients of solutions of Poisson problems, and of solutions of Helmholtz problems. *)
Lemma harmonic_const D i ix : allpos (gshape g') -> periodic (gshape g') D -> (forall ix, inb (gshape g') ix -> lapF g' D ix = 0%R) -> (i < n)%nat -> length ix = n -> fdF g' i D ix = 0%R.
Proof.
  intros Hpos HD H Hi. revert ix.
  assert (E : asum (gshape g') (fun ix => D ix * lapF g' D ix)%R = 0%R).
  { rewrite (asum_ext _ _ (fun _ => 0%R)); [apply asum_0|]. intros ix Hix. rewrite H by auto. ring. }
  rewrite lapF_neg in E by auto.
  assert (Z : asum (gshape g') (fun ix => fdF g' i D ix * fdF g' i D ix)%R = 0%R).
  { apply (@ProjectionProps.nsum_nonneg_0 (gndim g') (fun i => asum (gshape g') (fun ix => fdF g' i D ix * fdF g' i D ix)%R)); [|lra|lia].
    intros j Hj. apply asum_nonneg. intros; apply Rle_0_sqr. }
  intros ix HL. apply (@periodic_ext_all (gshape g') (fdF g' i D) (fun _ => 0%R)); auto.
  - apply periodic_fdF; auto.
  - intros jx _. reflexivity.
  - intros jx Hjx. pose proof (@asum_nonneg_0 (gshape g') (fun jx => fdF g' i D jx * fdF g' i D jx)%R ltac:(intros; apply Rle_0_sqr) Z jx Hjx) as Z2.
    cbv beta in Z2. apply Rmult_integral in Z2. tauto.
  - change (length ix = gndim g'). lia.
Qed.
End Sym.
