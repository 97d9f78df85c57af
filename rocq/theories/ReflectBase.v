(** * Mirror images of functions of the cells: how the difference operators act on them *)
From Verif Require Import Prelude NdArr Grids_model Spec Boundaries_model BoundariesPeriodic FD_model PRep FDProofs FDProps Interp_model InterpProofs QRProps AdvectionProofs AdvectionProps EquationsMoreProps SpecSym SymBase SpecReflect.
Set Implicit Arguments.
Local Open Scope Z_scope.

Section Mir.
Variables (g : grid) (a : nat) (c : Z).
Let n := gndim g.
Hypothesis Ha : (a < n)%nat.
(** values kept [d] half cells above the centres along the axis of the mirror, even ([s = 1]) or odd ([s = -1]) *)
Definition mrel (d : Z) (s : R) (F F' : list Z -> R) : Prop := forall ix, length ix = n -> F' ix = (s * F (mirror_cell a (c - d) ix))%R.

Lemma mir_length e ix : length (mirror_cell a e ix) = length ix.
Proof. apply upd_length. Qed.
Lemma mir_shift e j ix : length ix = n -> mirror_cell a e (shiftix a j ix) = mirror_cell a (e - j) ix.
Proof. intros HL. unfold mirror_cell, shiftix. rewrite nth_upd_same by lia. rewrite upd_upd_same. f_equal. lia. Qed.
Lemma mir_shift_out e j ix : length ix = n -> shiftix a j (mirror_cell a e ix) = mirror_cell a (e + j) ix.
Proof. intros HL. unfold mirror_cell, shiftix. rewrite nth_upd_same by lia. rewrite upd_upd_same. f_equal. lia. Qed.
Lemma mir_other b e j ix : b <> a -> mirror_cell a e (shiftix b j ix) = shiftix b j (mirror_cell a e ix).
Proof. intros Hb. unfold mirror_cell, shiftix. rewrite !nth_upd_other by auto. apply upd_upd_comm. auto. Qed.
Lemma mir_wrap e ix : length ix = n -> wrap (gshape g) (mirror_cell a e (wrap (gshape g) ix)) = wrap (gshape g) (mirror_cell a e ix).
Proof.
  intros HL. assert (LW : length (wrap (gshape g) ix) = n) by (rewrite wrap_length by exact HL; reflexivity).
  apply (list_ext_nth 0); rewrite !wrap_length by (rewrite mir_length; assumption); [reflexivity|]. intros b Hb.
  change (b < n)%nat in Hb. rewrite !wrap_nth by (rewrite ?mir_length; try assumption; unfold n, gndim in *; lia). unfold mirror_cell.
  destruct (Nat.eq_dec b a) as [->|Hne].
  - rewrite !nth_upd_same by lia. rewrite wrap_nth by (unfold n, gndim in *; lia). apply Zminus_mod_idemp_r.
  - rewrite !nth_upd_other by auto. rewrite wrap_nth by (unfold n, gndim in *; lia). apply Zmod_mod.
Qed.
Lemma mir_periodic e F : periodic (gshape g) F -> periodic (gshape g) (fun ix => F (mirror_cell a e ix)).
Proof.
  intros HF ix HL. cbv beta. change (length ix = n) in HL.
  rewrite <- (HF (mirror_cell a e (wrap (gshape g) ix))) by (rewrite mir_length, wrap_length; auto). rewrite mir_wrap by auto.
  apply HF. rewrite mir_length. exact HL.
Qed.
Lemma mrel_periodic d s F F' : mrel d s F F' -> periodic (gshape g) F -> periodic (gshape g) F'.
Proof.
  intros H HF ix HL. change (length ix = n) in HL. rewrite (H ix HL), (H (wrap (gshape g) ix)) by (rewrite wrap_length by exact HL; reflexivity). f_equal.
  exact (@mir_periodic (c - d) F HF ix HL).
Qed.
Lemma mrel_ext d s F G F' G' : (forall ix, length ix = n -> F ix = G ix) -> (forall ix, length ix = n -> F' ix = G' ix) -> mrel d s F F' -> mrel d s G G'.
Proof. intros A B H ix HL. rewrite <- B by auto. rewrite (H ix HL). rewrite A by (rewrite mir_length; auto). reflexivity. Qed.
Lemma mrel_eq d d' s s' F F' : d = d' -> s = s' -> mrel d s F F' -> mrel d' s' F F'.
Proof. intros -> ->; auto. Qed.
Lemma mrel_plus d s F F' G G' : mrel d s F F' -> mrel d s G G' -> mrel d s (fun ix => F ix + G ix)%R (fun ix => F' ix + G' ix)%R.
Proof. intros A B ix HL. rewrite (A ix HL), (B ix HL). ring. Qed.
Lemma mrel_minus d s F F' G G' : mrel d s F F' -> mrel d s G G' -> mrel d s (fun ix => F ix - G ix)%R (fun ix => F' ix - G' ix)%R.
Proof. intros A B ix HL. rewrite (A ix HL), (B ix HL). ring. Qed.
Lemma mrel_opp d s F F' : mrel d s F F' -> mrel d s (fun ix => - F ix)%R (fun ix => - F' ix)%R.
Proof. intros A ix HL. rewrite (A ix HL). ring. Qed.
Lemma mrel_scal d s t F F' : mrel d s F F' -> mrel d s (fun ix => t * F ix)%R (fun ix => t * F' ix)%R.
Proof. intros A ix HL. rewrite (A ix HL). ring. Qed.
Lemma mrel_nsum d s m Fs Fs' : (forall i, (i < m)%nat -> mrel d s (Fs i) (Fs' i)) -> mrel d s (fun ix => nsum m (fun i => Fs i ix)) (fun ix => nsum m (fun i => Fs' i ix)).
Proof. intros H ix HL. rewrite <- nsum_scal. apply nsum_ext. intros i Hi. apply H; auto. Qed.
(** differences along the mirror's axis and along the others *)
Lemma mrel_fdF_a d s F F' : mrel d s F F' -> mrel (d + 1) (- s) (fdF g a F) (fdF g a F').
Proof.
  intros H ix HL. unfold fdF. rewrite (H ix HL), (H (shiftix a 1 ix)) by (rewrite shiftix_length; exact HL).
  rewrite mir_shift, mir_shift_out by auto. replace (c - (d + 1) + 1) with (c - d) by lia. replace (c - d - 1) with (c - (d + 1)) by lia. unfold Rdiv. ring.
Qed.
Lemma mrel_bdF_a d s F F' : mrel (d + 1) s F F' -> mrel d (- s) (bdF g a F) (bdF g a F').
Proof.
  intros H ix HL. unfold bdF. rewrite (H ix HL), (H (shiftix a (-1) ix)) by (rewrite shiftix_length; exact HL).
  rewrite mir_shift, mir_shift_out by auto. replace (c - (d + 1) - -1) with (c - d) by lia. replace (c - d + -1) with (c - (d + 1)) by lia. unfold Rdiv. ring.
Qed.
Lemma mrel_shift_o b j d s F F' : b <> a -> mrel d s F F' -> mrel d s (fun ix => F (shiftix b j ix)) (fun ix => F' (shiftix b j ix)).
Proof. intros Hb H ix HL. cbv beta. rewrite (H (shiftix b j ix)) by (rewrite shiftix_length; exact HL). rewrite mir_other by auto. reflexivity. Qed.
Lemma mrel_fdF_o b d s F F' : b <> a -> mrel d s F F' -> mrel d s (fdF g b F) (fdF g b F').
Proof. intros Hb H ix HL. unfold fdF. rewrite (H ix HL), (mrel_shift_o 1 Hb H ix HL). unfold Rdiv. ring. Qed.
Lemma mrel_bdF_o b d s F F' : b <> a -> mrel d s F F' -> mrel d s (bdF g b F) (bdF g b F').
Proof. intros Hb H ix HL. unfold bdF. rewrite (H ix HL), (mrel_shift_o (-1) Hb H ix HL). unfold Rdiv. ring. Qed.
(** half cells and signs of the component along axis [i] *)
Definition hd (i : nat) : Z := if (i =? a)%nat then 1 else 0.
Definition sg (i : nat) : R := if (i =? a)%nat then (-1)%R else 1%R.
Lemma mrel_divF d s Fs Fs' : (forall i, (i < n)%nat -> mrel (d + hd i) (s * sg i) (Fs i) (Fs' i)) -> mrel d s (divF g Fs) (divF g Fs').
Proof.
  intros H. unfold divF. apply (@mrel_nsum d s (gndim g) (fun i => bdF g i (Fs i)) (fun i => bdF g i (Fs' i))). intros i Hi. specialize (H i Hi). unfold hd, sg in H.
  destruct (Nat.eqb_spec i a) as [Ei|Hne].
  - rewrite Ei in H |- *. apply (@mrel_eq d d (- (s * -1)) s); [reflexivity | ring|]. apply mrel_bdF_a. exact H.
  - apply mrel_bdF_o; auto. apply (@mrel_eq (d + 0) d (s * 1) s); [lia | ring | exact H].
Qed.
Lemma mrel_fdF i d s F F' : mrel d s F F' -> mrel (d + hd i) (s * sg i) (fdF g i F) (fdF g i F').
Proof.
  intros H. unfold hd, sg. destruct (Nat.eqb_spec i a) as [Ei|Hne].
  - rewrite Ei. apply (@mrel_eq (d + 1) (d + 1) (- s) (s * -1)); [reflexivity | ring|]. apply mrel_fdF_a. exact H.
  - apply (@mrel_eq d (d + 0) s (s * 1)); [lia | ring|]. apply mrel_fdF_o; auto.
Qed.
Lemma mrel_lapF d s F F' : mrel d s F F' -> mrel d s (lapF g F) (lapF g F').
Proof.
  intros H. apply mrel_ext with (F := divF g (fun i => fdF g i F)) (F' := divF g (fun i => fdF g i F')).
  - intros; symmetry; apply lapF_is_div_grad.
  - intros; symmetry; apply lapF_is_div_grad.
  - apply mrel_divF. intros i Hi. apply mrel_fdF. exact H.
Qed.
(** linear interpolation *)
Lemma mrel_lerp_axis_o b e d s F F' : b <> a -> mrel d s F F' -> mrel d s (lerp_axis b e F) (lerp_axis b e F').
Proof. intros Hb H ix HL. unfold lerp_axis. rewrite (mrel_shift_o (Qfloor e) Hb H ix HL), (mrel_shift_o (Qfloor e + 1) Hb H ix HL). ring. Qed.
Lemma mrel_lerp_axis_a e k d s F F' : (2 * e == inject_Z k)%Q -> mrel d s F F' -> mrel (d + k) s (lerp_axis a e F) (lerp_axis a e F').
Proof.
  intros He H ix HL. unfold lerp_axis. rewrite (H (shiftix a (Qfloor e) ix)), (H (shiftix a (Qfloor e + 1) ix)) by (rewrite shiftix_length; exact HL).
  rewrite !mir_shift, !mir_shift_out by auto. set (f := Qfloor e).
  assert (Hk : k = 2 * f \/ k = 2 * f + 1).
  { assert (E2 : (e == k # 2)%Q) by (rewrite Qmake_Qdiv, <- He; change (inject_Z 2) with 2%Q; field).
    assert (E3 : f = k / 2) by (unfold f; rewrite E2; reflexivity). pose proof (Z.div_mod k 2 ltac:(lia)). pose proof (Z.mod_pos_bound k 2 ltac:(lia)). lia. }
  destruct Hk as [Hk|Hk].
  - assert (E : (e - inject_Z f == 0)%Q). { rewrite Hk in He. rewrite inject_Z_mult in He. change (inject_Z 2) with 2%Q in He. Lqa.lra. }
    rewrite (Qreals.Qeq_eqR _ _ E). replace (Q2R 0) with 0%R by (unfold Q2R; cbn; lra).
    replace (c - (d + k) + f) with (c - d - f) by lia. ring.
  - assert (E : (e - inject_Z f == 1 # 2)%Q). { rewrite Hk in He. rewrite inject_Z_plus, inject_Z_mult in He. change (inject_Z 2) with 2%Q in He. change (inject_Z 1) with 1%Q in He. Lqa.lra. }
    rewrite (Qreals.Qeq_eqR _ _ E). replace (Q2R (1 # 2)) with (/ 2)%R by (unfold Q2R; cbn; lra).
    replace (c - (d + k) + f) with (c - d - (f + 1)) by lia. replace (c - (d + k) + (f + 1)) with (c - d - f) by lia. field.
Qed.
Lemma mrel_lerp o1 o2 k d s F F' : (2 * (nth a o2 0 - nth a o1 0) == inject_Z k)%Q -> mrel d s F F' -> mrel (d + k) s (lerp n o1 o2 F) (lerp n o1 o2 F').
Proof.
  intros He H.
  assert (G : forall m, mrel (if (a <? m)%nat then d + k else d) s (lerp m o1 o2 F) (lerp m o1 o2 F')).
  { induction m as [|m IH]; [exact H|]. cbn [lerp]. destruct (Nat.eq_dec m a) as [->|Hne].
    - replace (a <? S a)%nat with true by (symmetry; apply Nat.ltb_lt; lia). replace (a <? a)%nat with false in IH by (symmetry; apply Nat.ltb_ge; lia).
      apply mrel_lerp_axis_a; auto.
    - replace (a <? S m)%nat with (a <? m)%nat; [apply mrel_lerp_axis_o; auto|]. destruct (Nat.ltb_spec a m), (Nat.ltb_spec a (S m)); auto; lia. }
  specialize (G n). replace (a <? n)%nat with true in G by (symmetry; apply Nat.ltb_lt; exact Ha). exact G.
Qed.
End Mir.
