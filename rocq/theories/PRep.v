(** * Periodic fields: what the modelled operations compute, as functions on Z^d.

    [prep g o F u]: the GridArray [u] lives on grid [g] at offset [o] and its
    entries are the values of [F] (a function on all integer indices). For fully
    periodic variables every operation of the library becomes a stencil on [F]. *)
From Verif Require Import Prelude NdArr Grids_model Spec Boundaries_model BoundariesPeriodic FD_model.
Set Implicit Arguments.

Notation prep g o F u := (is_field u g o F).

Definition pvar (g : grid) (o : list Q) (F : list Z -> R) (u : gvar) : Prop :=
  prep g o F (garray u) /\ perbc g (gbc u).

(** ** offsets up to Qeq *)
Lemma off_eq_refl o : off_eq o o.
Proof. induction o; constructor; auto. reflexivity. Qed.
Lemma off_eq_sym o p : off_eq o p -> off_eq p o.
Proof. induction 1; constructor; auto. symmetry; auto. Qed.
Lemma off_eq_trans o p q : off_eq o p -> off_eq p q -> off_eq o q.
Proof.
  intros H; revert q; induction H as [|x y o p Hxy HF IH]; intros q H2; inversion H2; subst; constructor.
  - etransitivity; eauto.
  - apply IH; auto.
Qed.
Lemma off_eqb_iff o p : off_eqb o p = true <-> off_eq o p.
Proof.
  revert p; induction o as [|x o IH]; intros [|y p]; simpl; split; intros H; try discriminate; try constructor; try inversion H; subst.
  - apply andb_true_iff in H1. apply Qeq_bool_iff. tauto.
  - apply andb_true_iff in H1. apply IH. tauto.
  - apply andb_true_iff; split; [apply Qeq_bool_iff; auto | apply IH; auto].
Qed.
Lemma off_eq_length o p : off_eq o p -> length o = length p.
Proof. apply Forall2_length'. Qed.
Lemma off_eq_nth o p k : off_eq o p -> (nth k o 0 == nth k p 0)%Q.
Proof.
  intros H. destruct (Nat.lt_ge_cases k (length o)) as [Hk|Hk].
  - apply (Forall2_nth' 0%Q 0%Q H Hk).
  - rewrite !nth_overflow; [reflexivity | rewrite <- (off_eq_length H); auto | auto].
Qed.
Lemma off_eq_intro o p : length o = length p -> (forall k, (k < length o)%nat -> (nth k o 0 == nth k p 0)%Q) -> off_eq o p.
Proof. apply Forall2_intro_nth. Qed.
Lemma off_eq_upd o p k x y : off_eq o p -> (x == y)%Q -> off_eq (upd k x o) (upd k y p).
Proof.
  intros H Hxy; revert k; induction H as [|a b o p Hab HF IH]; intros [|k]; simpl; constructor; auto.
  apply IH.
Qed.
Lemma offs_length ax q o : length (offs ax q o) = length o.
Proof. apply upd_length. Qed.
Lemma off_eq_offs ax q r o p : off_eq o p -> (q == r)%Q -> off_eq (offs ax q o) (offs ax r p).
Proof. intros H Hq. apply off_eq_upd; auto. rewrite (off_eq_nth ax H), Hq. reflexivity. Qed.
Lemma offs_offs ax q r o : off_eq (offs ax q (offs ax r o)) (offs ax (r + q)%Q o).
Proof.
  unfold offs. rewrite upd_upd_same.
  destruct (Nat.lt_ge_cases ax (length o)) as [H|H].
  - apply off_eq_upd; [apply off_eq_refl|]. rewrite nth_upd_same by auto. ring.
  - rewrite !upd_overflow by auto. apply off_eq_refl.
Qed.
Lemma offs_comm ax bx q r o : off_eq (offs ax q (offs bx r o)) (offs bx r (offs ax q o)).
Proof.
  destruct (Nat.eq_dec ax bx) as [->|Hne].
  - eapply off_eq_trans; [apply offs_offs|]. eapply off_eq_trans; [|apply off_eq_sym; apply offs_offs].
    apply off_eq_offs; [apply off_eq_refl | ring].
  - unfold offs. rewrite !nth_upd_other by auto. rewrite upd_upd_comm by auto. apply off_eq_refl.
Qed.
Lemma offs_0 ax o : off_eq (offs ax 0%Q o) o.
Proof.
  unfold offs. apply off_eq_intro; [apply upd_length|]. intros k Hk. rewrite upd_length in Hk.
  destruct (Nat.eq_dec k ax) as [->|Hne]; [rewrite nth_upd_same by auto; ring | rewrite nth_upd_other by auto; reflexivity].
Qed.

(** ** congruence *)
Lemma prep_ext g o F G u : (forall ix, inb (gshape g) ix -> F ix = G ix) -> prep g o F u -> prep g o G u.
Proof. intros H (A & B & C & D). repeat split; auto. intros ix Hi. rewrite D by auto. apply H; auto. Qed.
Lemma prep_off g o p F u : off_eq o p -> prep g o F u -> prep g p F u.
Proof. intros H (A & B & C & D). repeat split; auto. eapply off_eq_trans; eauto. Qed.

Lemma wrap_upd' s ix ax i : wrap s (upd ax i ix) = upd ax (i mod Z.of_nat (nth ax s 0%nat))%Z (wrap s ix).
Proof.
  revert ix ax; induction s as [|n s IH]; intros [|j ix] [|ax]; simpl in *; auto.
  rewrite IH. reflexivity.
Qed.

Lemma periodic_pval u : periodic (shp (gdata u)) (pval u).
Proof. intros ix HL. unfold pval. rewrite wrap_wrap by auto. reflexivity. Qed.

Lemma prep_pval u : prep (ggrid u) (goff u) (pval u) u <-> shp (gdata u) = gshape (ggrid u).
Proof.
  split; [intros (_ & _ & H & _); auto|]. intros H. repeat split; auto; [apply off_eq_refl|].
  intros ix Hi. unfold pval. rewrite H, wrap_inb by auto. reflexivity.
Qed.

Lemma pval_prep g o F u ix : periodic (gshape g) F -> prep g o F u -> allpos (gshape g) ->
  length ix = gndim g -> pval u ix = F ix.
Proof.
  intros HF (A & B & C & D) Hp HL. unfold pval. rewrite C, D by (apply inb_wrap; auto).
  apply HF; auto.
Qed.

Lemma axper_of_periodic s ax F : periodic s F -> (ax < length s)%nat ->
  axper ax (nth ax s 0%nat) (fun ix => F (wrap s ix)).
Proof.
  intros HF Hax ix i. f_equal. rewrite !wrap_upd'. f_equal.
  destruct (nth ax s 0%nat); [rewrite !Zmod_0_r; reflexivity | apply Z.mod_mod; lia].
Qed.

(** ** shift *)
Lemma btype_perbc g b ax : perbc g b -> (ax < gndim g)%nat -> btype b ax = (Periodic, Periodic).
Proof. intros H Hax. unfold btype. rewrite H. apply nth_repeat'; auto. Qed.

Lemma prep_shift g o F b u k ax mode :
  wfg g -> periodic (gshape g) F -> btype b ax = (Periodic, Periodic) -> (ax < gndim g)%nat ->
  length o = gndim g -> prep g o F u ->
  exists w, bc_shift b u k ax mode = Ok w /\
            prep g (offs ax (inject_Z k) o) (fun ix => F (shiftix ax k ix)) w.
Proof.
  intros (Hst & Hdm & Hp & Hnz) HF Hb Hax Ho (Hg & Hoff & Hsh & Hget).
  assert (Hn : (0 < gshp u ax)%nat) by (unfold gshp; rewrite Hg; apply allpos_nth; auto).
  assert (Hus : ushape u ax = gshp u ax) by (unfold ushape, gshp; rewrite Hsh, Hg; reflexivity).
  destruct (@shift_periodic b u k ax mode (fun ix => F (wrap (gshape g) ix)) 0%Z)
    as (w & Ew & Hgw & How & Hsw & Hgetw); auto.
  - rewrite Hg; auto.
  - rewrite Hsh; auto.
  - rewrite (off_eq_length Hoff), Ho; auto.
  - lia.
  - unfold gshp. rewrite Hg. apply axper_of_periodic; auto.
  - intros ix Hi. rewrite shiftix_0. rewrite Hsh in Hi. rewrite wrap_inb by auto. apply Hget; auto.
  - exists w; split; [exact Ew|]. repeat split.
    + congruence.
    + eapply off_eq_trans; [exact How|]. unfold offs, offat.
      apply off_eq_upd; auto. rewrite (off_eq_nth ax Hoff). reflexivity.
    + congruence.
    + intros ix Hi. rewrite Hgetw by (rewrite Hsw, Hsh; auto).
      rewrite Z.add_0_l. apply HF. rewrite shiftix_length. apply inb_length; auto.
Qed.

Lemma pvar_shift g o F u k ax :
  wfg g -> periodic (gshape g) F -> (ax < gndim g)%nat -> length o = gndim g -> pvar g o F u ->
  exists w, gv_shift u k ax = Ok w /\ prep g (offs ax (inject_Z k) o) (fun ix => F (shiftix ax k ix)) w.
Proof.
  intros Hw HF Hax Ho (Hr & Hb). unfold gv_shift. apply prep_shift; auto. eapply btype_perbc; eauto.
Qed.

(** ** arithmetic *)
Lemma shape_eqb_refl s : shape_eqb s s = true.
Proof. unfold shape_eqb. destruct (list_eq_dec Nat.eq_dec s s); congruence. Qed.
Lemma grid_eqb_refl g : grid_eqb g g = true.
Proof. unfold grid_eqb. destruct (grid_eq_dec g g); congruence. Qed.
Lemma grid_eqb_eq g h : grid_eqb g h = true <-> g = h.
Proof. unfold grid_eqb. destruct (grid_eq_dec g h); split; congruence. Qed.

Lemma prep_op2 f g o F G a b :
  prep g o F a -> prep g o G b ->
  exists w, ga_op2 f a b = Ok w /\ prep g o (fun ix => f (F ix) (G ix)) w.
Proof.
  intros (A1 & B1 & C1 & D1) (A2 & B2 & C2 & D2).
  unfold ga_op2, array_ufunc. simpl. rewrite C1, C2, shape_eqb_refl. simpl.
  replace (off_eqb (goff a) (goff b)) with true
    by (symmetry; apply off_eqb_iff; eapply off_eq_trans; [exact B1 | apply off_eq_sym; exact B2]).
  simpl. rewrite A1, A2, grid_eqb_refl. simpl.
  eexists; split; [reflexivity|]. repeat split; simpl; auto.
  intros ix Hi. rewrite D1, D2 by auto. reflexivity.
Qed.

(** scalar operations: result in every case *)
Lemma prep_scalar_r f g o F a c :
  prep g o F a ->
  exists w, array_ufunc (raw2 f) [OGA a; OScalar c] = Ok w /\ prep g o (fun ix => f (F ix) c) w.
Proof.
  intros (A1 & B1 & C1 & D1). unfold array_ufunc. simpl. rewrite C1.
  destruct (gshape g) as [|n s] eqn:Eg.
  - rewrite shape_eqb_refl. simpl. eexists; split; [reflexivity|]. repeat split; simpl; auto; try congruence.
    rewrite Eg. intros ix Hi. rewrite D1 by auto. reflexivity.
  - replace (shape_eqb (n :: s) []) with false by (unfold shape_eqb; destruct (list_eq_dec Nat.eq_dec (n :: s) []); congruence).
    simpl. eexists; split; [reflexivity|]. repeat split; simpl; auto; try congruence.
    rewrite Eg. intros ix Hi. rewrite D1 by auto. reflexivity.
Qed.

Lemma prep_scalar_l f g o F a c :
  prep g o F a ->
  exists w, array_ufunc (raw2 f) [OScalar c; OGA a] = Ok w /\ prep g o (fun ix => f c (F ix)) w.
Proof.
  intros (A1 & B1 & C1 & D1). unfold array_ufunc. simpl. rewrite C1.
  destruct (gshape g) as [|n s] eqn:Eg.
  - rewrite shape_eqb_refl. simpl. eexists; split; [reflexivity|]. repeat split; simpl; auto; try congruence.
    rewrite Eg. intros ix Hi. rewrite D1 by auto. reflexivity.
  - replace (shape_eqb [] (n :: s)) with false by (unfold shape_eqb; destruct (list_eq_dec Nat.eq_dec [] (n :: s)); congruence).
    simpl. eexists; split; [reflexivity|]. repeat split; simpl; auto; try congruence.
    rewrite Eg. intros ix Hi. rewrite D1 by auto. reflexivity.
Qed.

Lemma prep_neg g o F a : prep g o F a ->
  exists w, ga_neg a = Ok w /\ prep g o (fun ix => - F ix)%R w.
Proof.
  intros (A1 & B1 & C1 & D1). unfold ga_neg, array_ufunc. simpl.
  eexists; split; [reflexivity|]. repeat split; simpl; auto. intros ix Hi. rewrite D1; auto.
Qed.

(** ** stencil sums of two arrays *)
Lemma raw_sum_two a b : shp a = shp b ->
  exists d, raw_sum [a; b] = Ok d /\ shp d = shp a /\
            forall ix, inb (shp a) ix -> get d ix = (get a ix + get b ix)%R.
Proof.
  intros H. unfold raw_sum. simpl.
  destruct (shp a) as [|n s] eqn:Ea.
  - rewrite shape_eqb_refl. simpl. rewrite <- H. rewrite shape_eqb_refl. simpl.
    eexists; split; [reflexivity|]. split; [reflexivity|]. intros ix Hi. simpl. ring.
  - replace (shape_eqb [] (n :: s)) with false by (unfold shape_eqb; destruct (list_eq_dec Nat.eq_dec [] (n :: s)); congruence).
    simpl. rewrite Ea, <- H, shape_eqb_refl. simpl.
    eexists; split; [reflexivity|]. split; [simpl; auto|]. intros ix Hi. simpl. ring.
Qed.

Definition avg2 (o p : list Q) : list Q := map (fun j => ((nth j o 0 + nth j p 0) / 2)%Q) (seq 0 (length o)).

Lemma prep_stencil2 g o1 o2 F1 F2 a b :
  prep g o1 F1 a -> prep g o2 F2 b ->
  exists w, stencil_sum [a; b] = Ok w /\ prep g (avg2 o1 o2) (fun ix => F1 ix + F2 ix)%R w.
Proof.
  intros (A1 & B1 & C1 & D1) (A2 & B2 & C2 & D2).
  destruct (@raw_sum_two (gdata a) (gdata b)) as (d & Ed & Hsd & Hgd); [congruence|].
  unfold stencil_sum. change (map gdata [a; b]) with [gdata a; gdata b]. rewrite Ed. simpl.
  rewrite A1, A2, grid_eqb_refl. simpl.
  eexists; split; [reflexivity|]. repeat split; simpl.
  - unfold avg2. rewrite <- (off_eq_length B1).
    apply off_eq_intro; [rewrite !map_length; reflexivity|].
    intros k Hk. rewrite map_length, seq_length in Hk.
    rewrite !nth_map_seq by auto. rewrite (off_eq_nth k B1), (off_eq_nth k B2).
    change (inject_Z (Z.of_nat 2)) with 2%Q. field.
  - congruence.
  - intros ix Hi. rewrite Hgd, D1, D2 by (rewrite ?C1; auto). reflexivity.
Qed.

Lemma avg2_offs ax q r o : (ax < length o)%nat -> off_eq (avg2 (offs ax q o) (offs ax r o)) (offs ax ((q + r) / 2)%Q o).
Proof.
  intros Hax. unfold avg2, offs. apply off_eq_intro; [rewrite map_length, seq_length, !upd_length; reflexivity|].
  intros k Hk. rewrite map_length, seq_length, upd_length in Hk.
  rewrite nth_map_seq by (rewrite upd_length; auto).
  destruct (Nat.eq_dec k ax) as [->|Hne].
  - rewrite !nth_upd_same by auto. field.
  - rewrite !nth_upd_other by auto. field.
Qed.

Lemma prep_stencil_shifts g o ax q r F1 F2 a b :
  (ax < length o)%nat ->
  prep g (offs ax q o) F1 a -> prep g (offs ax r o) F2 b ->
  exists w, stencil_sum [a; b] = Ok w /\ prep g (offs ax ((q + r) / 2)%Q o) (fun ix => F1 ix + F2 ix)%R w.
Proof.
  intros Hax H1 H2. destruct (prep_stencil2 H1 H2) as (w & Ew & Hw). exists w; split; auto.
  eapply prep_off; [apply avg2_offs; auto | exact Hw].
Qed.

(** ** difference quotients *)
Section FD.
Variables (g : grid) (o : list Q) (F : list Z -> R) (u : gvar) (ax : nat).
Hypothesis (Hw : wfg g) (HF : periodic (gshape g) F) (Hax : (ax < gndim g)%nat)
           (Ho : length o = gndim g) (Hu : pvar g o F u).
Let h := nth ax (gstep g) 0%R.

Lemma stepat_pvar : stepat u ax = h.
Proof. unfold stepat. destruct Hu as ((A & _) & _). rewrite A. reflexivity. Qed.

Lemma prep_offs0 : prep g (offs ax 0%Q o) F (garray u).
Proof. destruct Hu as (H & _). eapply prep_off; [apply off_eq_sym; apply offs_0 | exact H]. Qed.

Lemma fwd_prep : exists w, forward_difference u ax = Ok w /\
  prep g (offs ax (1 # 2) o) (fun ix => (F (shiftix ax 1 ix) - F ix) / h)%R w.
Proof.
  unfold forward_difference.
  destruct (pvar_shift 1 Hw HF Hax Ho Hu) as (a & Ea & Ha). rewrite Ea. cbn [bind].
  destruct (prep_neg prep_offs0) as (nb & En & Hn). rewrite En. cbn [bind].
  assert (Hl : (ax < length o)%nat) by lia.
  destruct (prep_stencil_shifts _ _ _ Hl Ha Hn) as (d & Ed & Hd). rewrite Ed. cbn [bind].
  rewrite stepat_pvar. destruct (prep_scalar_r Rdiv h Hd) as (w & Ew & Hww).
  exists w; split; [exact Ew|].
  eapply prep_off; [|exact Hww]. apply off_eq_offs; [apply off_eq_refl | reflexivity].
Qed.

Lemma bwd_prep : exists w, backward_difference u ax = Ok w /\
  prep g (offs ax (- 1 # 2) o) (fun ix => (F ix - F (shiftix ax (-1) ix)) / h)%R w.
Proof.
  unfold backward_difference.
  destruct (pvar_shift (-1) Hw HF Hax Ho Hu) as (a & Ea & Ha). rewrite Ea. cbn [bind].
  destruct (prep_neg Ha) as (nb & En & Hn). rewrite En. cbn [bind].
  assert (Hl : (ax < length o)%nat) by lia.
  destruct (prep_stencil_shifts _ _ _ Hl prep_offs0 Hn) as (d & Ed & Hd). rewrite Ed. cbn [bind].
  rewrite stepat_pvar. destruct (prep_scalar_r Rdiv h Hd) as (w & Ew & Hww).
  exists w; split; [exact Ew|].
  eapply prep_off; [|exact Hww]. apply off_eq_offs; [apply off_eq_refl | reflexivity].
Qed.

Lemma ctr_prep : exists w, central_difference u ax = Ok w /\
  prep g o (fun ix => (F (shiftix ax 1 ix) - F (shiftix ax (-1) ix)) / (2 * h))%R w.
Proof.
  unfold central_difference.
  destruct (pvar_shift 1 Hw HF Hax Ho Hu) as (a & Ea & Ha). rewrite Ea. cbn [bind].
  destruct (pvar_shift (-1) Hw HF Hax Ho Hu) as (b & Eb & Hb). rewrite Eb. cbn [bind].
  destruct (prep_neg Hb) as (nb & En & Hn). rewrite En. cbn [bind].
  assert (Hl : (ax < length o)%nat) by lia.
  destruct (prep_stencil_shifts _ _ _ Hl Ha Hn) as (d & Ed & Hd). rewrite Ed. cbn [bind].
  rewrite stepat_pvar. destruct (prep_scalar_r Rdiv (2 * h)%R Hd) as (w & Ew & Hww).
  exists w; split; [exact Ew|].
  eapply prep_off; [|exact Hww].
  eapply off_eq_trans; [|apply offs_0 with (ax := ax)]. apply off_eq_offs; [apply off_eq_refl | reflexivity].
Qed.
End FD.
