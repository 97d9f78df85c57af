(** * Property C32: downsampling staggered velocities *)
From Verif Require Import Prelude NdArr Grids_model Spec SpecDiff FD_model FDProofs PRep WallFD ArrayUtils_model ArrayUtilsProps PressureSolve_model FastDiagProofs Resize_model.
Set Implicit Arguments.
Local Open Scope Z_scope.

(** ** Specification vocabulary *)
(** The fine shape has [f] times as many cells as the coarse one along every axis. *)
Definition refines (f : nat) (fine coarse : list nat) : Prop := fine = map (fun n => (f * n)%nat) coarse.
(** Cell [j] of the block of fine cells that make up the coarse cell [k]. *)
Definition fine_cell (f : nat) (k j : list Z) : list Z := map (fun a => nth a k 0 * Z.of_nat f + nth a j 0) (seq 0 (length k)).
(** Mean over the positions [j] in a block of shape [b]. *)
Definition block_mean (b : list nat) (F : list Z -> R) : R := (asum b F / INR (asize b))%R.
(** The block of a coarse cell, and the layer of it that touches the upper face normal to axis [a]. *)
Definition cell_block (f d : nat) : list nat := repeat f d.
Definition face_block (f d a : nat) : list nat := upd a 1%nat (repeat f d).
(** The fine face [j] of the upper face, normal to axis [a], of coarse cell [k]. *)
Definition fine_face (f a : nat) (k j : list Z) : list Z := upd a (nth a k 0 * Z.of_nat f + Z.of_nat f - 1) (fine_cell f k j).

Lemma fine_cell_length f k j : length (fine_cell f k j) = length k.
Proof. unfold fine_cell. rewrite map_length, seq_length. reflexivity. Qed.
Lemma fine_cell_nth f k j a : (a < length k)%nat -> nth a (fine_cell f k j) 0 = nth a k 0 * Z.of_nat f + nth a j 0.
Proof. intros H. unfold fine_cell. rewrite nth_map_seq by exact H. reflexivity. Qed.

Lemma block_sizes f d a : map (fun j => if (j =? a)%nat then 1%nat else f) (seq 0 d) = face_block f d a.
Proof.
  apply (list_ext_nth 0%nat).
  - unfold face_block. rewrite map_length, seq_length, upd_length, repeat_length. reflexivity.
  - intros k Hk. rewrite map_length, seq_length in Hk. rewrite nth_map_seq by exact Hk. cbn [Nat.add]. unfold face_block.
    destruct (Nat.eqb_spec k a) as [->|N]; [symmetry; apply nth_upd_same; rewrite repeat_length; exact Hk|].
    rewrite nth_upd_other by auto. symmetry. apply nth_repeat'. exact Hk.
Qed.

Lemma block_ix_length b k j : length k = length b -> length j = length b -> length (block_ix b k j) = length b.
Proof. revert k j. induction b as [|n b IH]; intros [|x k] [|y j] H1 H2; cbn in *; try lia; reflexivity || (f_equal; apply IH; lia). Qed.
Lemma block_ix_nth b : forall k j c, length k = length b -> length j = length b -> (c < length b)%nat -> nth c (block_ix b k j) 0 = nth c k 0 * Z.of_nat (nth c b 0%nat) + nth c j 0.
Proof. induction b as [|n b IH]; intros [|x k] [|y j] [|c] H1 H2 Hc; cbn in *; try lia; auto. apply IH; lia. Qed.
Lemma refines_length f s s' : refines f s s' -> length s = length s'.
Proof. intros ->. apply map_length. Qed.
Lemma refines_nth f s s' a : refines f s s' -> (a < length s')%nat -> nth a s 0%nat = (f * nth a s' 0)%nat.
Proof. intros -> H. apply (@nth_map' _ _ (fun n => (f * n)%nat) s' a 0%nat 0%nat H). Qed.
Lemma inb_fine f s s' k j : refines f s s' -> inb s' k -> inb (cell_block f (length s')) j -> inb s (fine_cell f k j).
Proof.
  intros R Hk Hj. pose proof (inb_length _ _ Hk) as Lk. pose proof (refines_length R) as L. apply inb_intro; [rewrite fine_cell_length; lia|].
  intros a Ha. rewrite fine_cell_nth by lia. rewrite (refines_nth R) by lia. pose proof (@inb_nth _ _ a Hk ltac:(lia)) as X.
  pose proof (@inb_nth _ _ a Hj ltac:(unfold cell_block; rewrite repeat_length; lia)) as Y. unfold cell_block in Y. rewrite nth_repeat' in Y by lia. nia.
Qed.

(* @prop C32 Every value of a downsampled velocity component is the mean of the fine values on the coarse face it belongs to (the upper face of the coarse cell in that direction; each coarse face consists of factor^(d-1) fine faces), for every rank, direction, factor >= 1 and shape that is a multiple of the factor. *)
Lemma downsample_component_spec_lem : forall (u : arr R) (a f : nat) (coarse : list nat),
  (0 < f)%nat -> refines f (shp u) coarse -> (a < length coarse)%nat ->
  exists w, downsample_staggered_velocity_component u a (Z.of_nat f) = Ok w /\ shp w = coarse /\
    forall k, inb coarse k -> get w k = block_mean (face_block f (length coarse) a) (fun j => get u (fine_face f a k j)).
Proof.
  intros u a f s' Hf Rf Ha. pose proof (refines_length Rf) as L. pose proof (refines_nth Rf Ha) as Na.
  unfold downsample_staggered_velocity_component, slice_along_axis. cbn [same_dims forallb negb andb mapM].
  destruct (ndim u =? 0)%nat eqn:E0; [apply Nat.eqb_eq in E0; unfold ndim in E0; lia|].
  rewrite (@denotes_norm (Z.of_nat a) (ndim u) a) by (unfold denotes, ndim; lia). cbn [bind]. unfold index_axis. destruct (Z.leb_spec (Z.of_nat f) 0); [lia|]. cbn [bind leaf nth_error].
  set (n' := nth a s' 0%nat) in *. rewrite Na.
  assert (C : slice_count (f * n')%nat (Some (Z.of_nat f - 1)) None (Z.of_nat f) = n').
  { unfold slice_count, slice_stop, slice_start, clamp_bound. destruct (Z.ltb_spec (Z.of_nat f - 1) 0); [lia|].
    destruct n' as [|m]; [replace (Z.of_nat (f * 0)) with 0 by lia; replace (0 - Z.min (Z.of_nat f - 1) 0 + Z.of_nat f - 1) with (Z.of_nat f - 1) by lia; rewrite Z.div_small by lia; reflexivity|].
    replace (Z.of_nat (f * S m) - Z.min (Z.of_nat f - 1) (Z.of_nat (f * S m)) + Z.of_nat f - 1) with (Z.of_nat (S m) * Z.of_nat f) by nia.
    rewrite Z.div_mul by lia. lia. }
  rewrite C. unfold leaf. cbn [nth_error bind]. rewrite Nat2Z.id. unfold ndim at 1. rewrite L. rewrite block_sizes. set (b := face_block f (length s') a).
  assert (Lb : length b = length s') by (unfold b, face_block; rewrite upd_length, repeat_length; reflexivity).
  assert (Nb : forall c, (c < length s')%nat -> nth c b 0%nat = if (c =? a)%nat then 1%nat else f).
  { intros c Hc. unfold b, face_block. destruct (Nat.eqb_spec c a) as [->|N]; [apply nth_upd_same; rewrite repeat_length; exact Ha|]. rewrite nth_upd_other by auto. apply nth_repeat'. exact Hc. }
  unfold block_reduce, ndim. cbn [shp]. rewrite upd_length, L, Lb, Nat.eqb_refl. cbn [negb].
  assert (Ex : existsb (fun b0 => (b0 =? 0)%nat) b = false).
  { destruct (existsb (fun b0 => (b0 =? 0)%nat) b) eqn:X; [|reflexivity]. apply existsb_exists in X. destruct X as (x & Hx & X). apply Nat.eqb_eq in X. subst x.
    destruct (In_nth _ _ 0%nat Hx) as (c & Hc & X). rewrite Lb in Hc. rewrite Nb in X by exact Hc. destruct (c =? a)%nat; lia. }
  rewrite Ex. set (sw := upd a n' (shp u)). assert (Lw : length sw = length s') by (unfold sw; rewrite upd_length; exact L).
  assert (Nw : forall c, (c < length s')%nat -> nth c sw 0%nat = (nth c b 0 * nth c s' 0)%nat).
  { intros c Hc. rewrite Nb by exact Hc. unfold sw. destruct (Nat.eqb_spec c a) as [->|N]; [rewrite nth_upd_same by lia; unfold n'; lia|]. rewrite nth_upd_other by auto. apply refines_nth; assumption. }
  assert (Nc : forall c, (c < length s')%nat -> nth c (combine b sw) (0%nat, 0%nat) = (nth c b 0%nat, nth c sw 0%nat)) by (intros c Hc; apply combine_nth; lia).
  assert (Lc : length (combine b sw) = length s') by (rewrite combine_length; lia).
  assert (Pb : forall c, (c < length s')%nat -> (0 < nth c b 0)%nat) by (intros c Hc; rewrite Nb by exact Hc; destruct (c =? a)%nat; lia).
  assert (Fa : forallb (fun bs => (snd bs mod fst bs =? 0)%nat) (combine b sw) = true).
  { apply forallb_forall. intros x Hx. destruct (In_nth _ _ (0%nat, 0%nat) Hx) as (c & Hc & <-). rewrite Lc in Hc. rewrite Nc by exact Hc. cbn [fst snd]. rewrite Nw by exact Hc.
    rewrite Nat.mul_comm, Nat.mod_mul by (pose proof (Pb c Hc); lia). reflexivity. }
  rewrite Fa. eexists. split; [reflexivity|]. cbn [shp get]. split.
  - apply (list_ext_nth 0%nat); [rewrite map_length; exact Lc|]. intros c Hc. rewrite map_length, Lc in Hc.
    rewrite (@nth_map' _ _ _ (combine b sw) c (0%nat, 0%nat) 0%nat) by lia. rewrite Nc by exact Hc. cbn [fst snd]. rewrite Nw by exact Hc.
    rewrite Nat.mul_comm, Nat.div_mul by (pose proof (Pb c Hc); lia). reflexivity.
  - intros k Hk. pose proof (inb_length _ _ Hk) as Lk. unfold amean, total, block_mean. cbn [shp get]. f_equal. apply asum_ext. intros j Hj. pose proof (inb_length _ _ Hj) as Lj.
    assert (Ja : nth a j 0 = 0). { pose proof (@inb_nth _ _ a Hj ltac:(lia)) as X. rewrite Nb, Nat.eqb_refl in X by exact Ha. lia. }
    f_equal. unfold fine_face. pose proof (@inb_nth _ _ a Hk Ha) as Hka. fold n' in Hka.
    apply (list_ext_nth 0); [rewrite !upd_length, fine_cell_length, block_ix_length by lia; lia|]. intros c Hc. rewrite upd_length, block_ix_length in Hc by lia. rewrite Lb in Hc.
    destruct (Nat.eq_dec c a) as [->|N].
    + rewrite !nth_upd_same by (rewrite ?fine_cell_length, ?block_ix_length by lia; lia). rewrite block_ix_nth by lia. rewrite Nb, Nat.eqb_refl, Ja by exact Ha.
      unfold slice_start, clamp_bound. destruct (Z.ltb_spec (Z.of_nat f - 1) 0); [lia|]. nia.
    + rewrite !nth_upd_other by auto. rewrite block_ix_nth, fine_cell_nth by lia. rewrite Nb by exact Hc. destruct (Nat.eqb_spec c a); [contradiction|]. reflexivity.
Qed.
(* @ex *)
Lemma downsample_component_spec_ex_lem : let u := mkarr [4%nat; 4%nat] (fun ix => IZR (4 * nth 0 ix 0 + nth 1 ix 0)) in
  refines 2 (shp u) [2%nat; 2%nat] /\ inb [2%nat; 2%nat] [1; 0] /\
  block_mean (face_block 2 2 0) (fun j => get u (fine_face 2 0 [1; 0] j)) = (25 / 2)%R.
Proof. split; [reflexivity|]. split; [cbn; lia|]. unfold block_mean, face_block. cbn -[IZR INR]. change (INR 2) with 2%R. rewrite !Rplus_0_l. cbn -[IZR]. lra. Qed.

(** ** Divergence *)
(** A staggered velocity: component [i] sits on the upper cell faces normal to axis [i]; along its own axis it is
    periodic or bounded by Dirichlet walls (of any value); its other axes may have any boundary condition. *)
Definition staggered (g : grid) (v : list gvar) : Prop :=
  length v = gndim g /\
  forall i u, nth_error v i = Some u ->
    wf_garr (garray u) /\ ggrid (garray u) = g /\ off_eq (goff (garray u)) (offs i (1 # 2) (repeat (1 # 2)%Q (gndim g))) /\
    length (btypes (gbc u)) = gndim g /\ (periodic_axis (gbc u) i \/ edge_side (gbc u) (goff (garray u)) i <> None).

Lemma edge_top b o i : (nth i o 0 == 1)%Q -> edge_side b o i <> None ->
  exists lo hi, nth_error (btypes b) i = Some (Dirichlet, Dirichlet) /\ nth_error (bvals b) i = Some (Some lo, Some hi) /\ edge_side b o i = Some (true, hi).
Proof.
  intros Ho He. unfold edge_side in *. destruct (nth_error (btypes b) i) as [[[] []]|]; try congruence; destruct (nth_error (bvals b) i) as [[[lo|] [hi|]]|]; try congruence.
  exists lo, hi. split; [reflexivity|]. split; [reflexivity|]. apply Qeq_bool_iff in Ho. rewrite Ho. reflexivity.
Qed.
Lemma nbr_inside b u i ix : (nth i (goff u) 0 == 1)%Q -> periodic_axis b i \/ edge_side b (goff u) i <> None ->
  0 < nth i ix 0 < Z.of_nat (nth i (gshape (ggrid u)) 0%nat) -> nbr b u i (-1) ix = get (gdata u) (upd i (nth i ix 0 - 1) ix).
Proof.
  intros Ho H Hi. unfold nbr. destruct H as [Hp|He].
  - rewrite (nth_error_nth _ _ _ Hp). destruct (nth i (bvals b) (None, None)). rewrite Z.mod_small by lia. reflexivity.
  - destruct (edge_top _ _ _ Ho He) as (lo & hi & T & V & E). rewrite (nth_error_nth _ _ _ T), (nth_error_nth _ _ _ V), E.
    destruct (Z.ltb_spec (nth i ix 0 + -1) 0); [lia|]. destruct (Z.leb_spec (Z.of_nat (nth i (gshape (ggrid u)) 0%nat) - 1) (nth i ix 0 + -1)); [lia|]. reflexivity.
Qed.
Lemma nbr_low_periodic b u i ix : periodic_axis b i -> nth i ix 0 = 0 -> (0 < nth i (gshape (ggrid u)) 0)%nat ->
  nbr b u i (-1) ix = get (gdata u) (upd i (Z.of_nat (nth i (gshape (ggrid u)) 0%nat) - 1) ix).
Proof.
  intros Hp H0 Hn. unfold nbr. rewrite (nth_error_nth _ _ _ Hp). destruct (nth i (bvals b) (None, None)). rewrite H0.
  replace ((0 + -1) mod Z.of_nat (nth i (gshape (ggrid u)) 0%nat)) with (Z.of_nat (nth i (gshape (ggrid u)) 0%nat) - 1); [reflexivity|].
  symmetry. rewrite <- (Z.mod_small (Z.of_nat (nth i (gshape (ggrid u)) 0%nat) - 1) (Z.of_nat (nth i (gshape (ggrid u)) 0%nat))) at 1 by lia.
  rewrite <- (Z.mod_add (0 + -1) 1) by lia. f_equal. lia.
Qed.
Lemma nbr_low_wall b u i ix lo hi : nth_error (btypes b) i = Some (Dirichlet, Dirichlet) -> nth_error (bvals b) i = Some (Some lo, Some hi) -> edge_side b (goff u) i = Some (true, hi) -> nth i ix 0 = 0 ->
  nbr b u i (-1) ix = lo.
Proof. intros T V E H0. unfold nbr. rewrite (nth_error_nth _ _ _ T), (nth_error_nth _ _ _ V), E, H0. reflexivity. Qed.

Lemma asize_axis s a : (a < length s)%nat -> asize s = (nth a s 0 * asize (upd a 1 s))%nat.
Proof.
  revert a. induction s as [|n s IH]; intros [|a] H; cbn [length asize fold_right nth upd] in *; try lia. fold (asize s) in *. fold (asize (upd a 1%nat s)). rewrite (IH a) at 1 by lia. nia.
Qed.
Lemma asize_pos s : allpos s -> (0 < asize s)%nat.
Proof. induction 1 as [|n s Hn Hs IH]; cbn [asize fold_right]; [lia|]. fold (asize s). nia. Qed.

Lemma rsum_scal_r_local n c g : rsum n (fun i => g i * c)%R = (rsum n g * c)%R.
Proof. rewrite Rmult_comm, <- rsum_scal. apply rsum_ext. intros. ring. Qed.

Section Down.
Variables (f i : nat) (u w : gvar) (coarse : list nat).
Let s := gshape (ggrid (garray u)).
Let d := length coarse.
Hypothesis (Hf : (0 < f)%nat) (Hi : (i < d)%nat).
Hypothesis (Rf : refines f s coarse).
Hypothesis (Hw : gshape (ggrid (garray w)) = coarse) (Hpos : allpos coarse).
Hypothesis (Ho : (nth i (goff (garray u)) 0 == 1)%Q) (How : goff (garray w) = goff (garray u)) (Hb : gbc w = gbc u).
Hypothesis (Hax : periodic_axis (gbc u) i \/ edge_side (gbc u) (goff (garray u)) i <> None).
Hypothesis (Hval : forall k, inb coarse k -> at_ w k = block_mean (face_block f d i) (fun j => at_ u (fine_face f i k j))).
Let fb := face_block f d i.
Let n := nth i s 0%nat.
Let n' := nth i coarse 0%nat.
Lemma nn : n = (f * n')%nat.
Proof. apply refines_nth; assumption. Qed.
Lemma n'pos : (0 < n')%nat.
Proof. apply allpos_nth; assumption. Qed.
Lemma fbpos : (0 < asize fb)%nat.
Proof.
  clear Hval Hax Hb Hw Hpos Rf. assert (E : asize (repeat f d) = (f * asize fb)%nat) by (rewrite (@asize_axis (repeat f d) i) by (rewrite repeat_length; exact Hi); rewrite nth_repeat' by exact Hi; reflexivity).
  assert (P : (0 < asize (repeat f d))%nat) by (apply asize_pos; apply Forall_forall; intros x Hx; apply repeat_spec in Hx; lia). destruct (asize fb); lia.
Qed.
Lemma upd_fine k j t : length k = d -> (i < d)%nat -> fine_cell f k (upd i t j) = upd i (nth i k 0 * Z.of_nat f + t) (fine_cell f k j) \/ (length j <= i)%nat.
Proof.
  intros Lk Hi'. destruct (Nat.le_gt_cases (length j) i) as [|Hj]; [right; assumption | left].
  apply (list_ext_nth 0); [rewrite upd_length, !fine_cell_length; reflexivity|]. intros c Hc. rewrite fine_cell_length in Hc.
  destruct (Nat.eq_dec c i) as [->|N]; [rewrite nth_upd_same by (rewrite fine_cell_length; exact Hc); rewrite fine_cell_nth by exact Hc; rewrite nth_upd_same by exact Hj; reflexivity|].
  rewrite nth_upd_other by auto. rewrite !fine_cell_nth by exact Hc. rewrite nth_upd_other by auto. reflexivity.
Qed.
Lemma low_mean k : inb coarse k -> nbr (gbc w) (garray w) i (-1) k = block_mean fb (fun j => nbr (gbc u) (garray u) i (-1) (upd i (nth i k 0 * Z.of_nat f) (fine_cell f k j))).
Proof.
  intros Hk. pose proof nn as Nn. pose proof n'pos as Np. pose proof (@inb_nth _ _ i Hk Hi) as Ik. fold n' in Ik. pose proof (inb_length _ _ Hk) as Lk. fold d in Lk.
  assert (Lf : forall j, (i < length (fine_cell f k j))%nat) by (intros j; rewrite fine_cell_length; lia).
  assert (Hax' : periodic_axis (gbc w) i \/ edge_side (gbc w) (goff (garray w)) i <> None) by (rewrite Hb, How; exact Hax).
  assert (Face : forall m jx, upd i (m * Z.of_nat f + Z.of_nat f - 1) (fine_cell f k jx) = fine_face f i (upd i m k) jx).
  { intros m jx. unfold fine_face. rewrite nth_upd_same by lia. apply (list_ext_nth 0); [rewrite !upd_length, !fine_cell_length, upd_length; reflexivity|].
    intros c Hc. rewrite upd_length, fine_cell_length in Hc. destruct (Nat.eq_dec c i) as [->|N]; [rewrite !nth_upd_same by (rewrite fine_cell_length, ?upd_length; exact Hc); reflexivity|].
    rewrite !nth_upd_other by auto. rewrite !fine_cell_nth by (rewrite ?upd_length; exact Hc). rewrite nth_upd_other by auto. reflexivity. }
  destruct (Z.eq_dec (nth i k 0) 0) as [K0|K0].
  - destruct Hax as [Hp|He].
    + rewrite nbr_low_periodic; [| rewrite Hb; exact Hp | exact K0 | rewrite Hw; exact Np]. rewrite Hw. fold n'. fold (at_ w (upd i (Z.of_nat n' - 1) k)).
      rewrite Hval by (apply inb_upd_same; [exact Hk | fold n'; lia]). unfold block_mean. f_equal. apply asum_ext. intros j Hj.
      rewrite (@nbr_low_periodic (gbc u) (garray u) i) by (try exact Hp; rewrite ?nth_upd_same by (apply Lf); try (rewrite K0; lia); fold s; fold n; lia).
      fold s. fold n. rewrite upd_upd_same. rewrite <- Face. unfold at_. do 2 f_equal. nia.
    + destruct (edge_top _ _ _ Ho He) as (lo & hi & T & V & E).
      rewrite (@nbr_low_wall (gbc w) (garray w) i k lo hi) by (try (rewrite Hb; assumption); try exact K0; rewrite Hb, How; exact E).
      unfold block_mean. rewrite (asum_ext fb _ (fun _ => lo)); [rewrite asum_const; field; apply not_0_INR; pose proof fbpos; lia|].
      intros j Hj. apply (@nbr_low_wall (gbc u) (garray u) i _ lo hi); try assumption. rewrite nth_upd_same by apply Lf. rewrite K0. lia.
  - rewrite nbr_inside; [| rewrite How; exact Ho | exact Hax' | rewrite Hw; fold n'; lia]. fold (at_ w (upd i (nth i k 0 - 1) k)).
    rewrite Hval by (apply inb_upd_same; [exact Hk | fold n'; lia]). unfold block_mean. f_equal. apply asum_ext. intros j Hj.
    rewrite nbr_inside; [| exact Ho | exact Hax | rewrite nth_upd_same by apply Lf; fold s; fold n; nia]. rewrite nth_upd_same by apply Lf. rewrite upd_upd_same.
    rewrite <- Face. unfold at_. do 2 f_equal. lia.
Qed.
Lemma term_mean k h : inb coarse k -> (h <> 0)%R ->
  ((at_ w k - nbr (gbc w) (garray w) i (-1) k) / (INR f * h))%R =
  block_mean (cell_block f d) (fun j => (at_ u (fine_cell f k j) - nbr (gbc u) (garray u) i (-1) (fine_cell f k j)) / h)%R.
Proof.
  intros Hk Hh. pose proof nn as Nn. pose proof n'pos as Np. pose proof (@inb_nth _ _ i Hk Hi) as Ik. fold n' in Ik. pose proof (inb_length _ _ Hk) as Lk. fold d in Lk.
  rewrite low_mean by exact Hk. rewrite Hval by exact Hk. fold fb. unfold block_mean, cell_block.
  assert (Lr : (i < length (repeat f d))%nat) by (rewrite repeat_length; exact Hi).
  rewrite (@asum_axis (repeat f d) i _ Lr). rewrite nth_repeat' by exact Hi. change (upd i 1%nat (repeat f d)) with fb.
  rewrite (@asize_axis (repeat f d) i Lr). rewrite nth_repeat' by exact Hi. change (upd i 1%nat (repeat f d)) with fb. rewrite mult_INR.
  assert (E : asum fb (fun ix => rsum f (fun i0 => (at_ u (fine_cell f k (upd i i0 ix)) - nbr (gbc u) (garray u) i (-1) (fine_cell f k (upd i i0 ix))) / h)%R) =
              ((asum fb (fun j => at_ u (fine_face f i k j)) - asum fb (fun j => nbr (gbc u) (garray u) i (-1) (upd i (nth i k 0%Z * Z.of_nat f)%Z (fine_cell f k j)))) / h)%R).
  { rewrite <- asum_minus. unfold Rdiv. rewrite <- asum_scal_r. apply asum_ext. intros j Hj. rewrite rsum_scal_r_local.
    assert (Lj : (i < length j)%nat) by (rewrite (inb_length _ _ Hj); unfold fb, face_block; rewrite upd_length; exact Lr).
    f_equal. assert (Lf : (i < length (fine_cell f k j))%nat) by (rewrite fine_cell_length; lia).
    set (G := fun t => if (t =? 0)%Z then nbr (gbc u) (garray u) i (-1) (upd i (nth i k 0%Z * Z.of_nat f)%Z (fine_cell f k j)) else at_ u (upd i (nth i k 0%Z * Z.of_nat f + t - 1)%Z (fine_cell f k j))).
    transitivity (rsum f (fun t => G (t + 1)%Z - G t)%R).
    - apply rsum_ext. intros t Ht. destruct (upd_fine k j t Lk Hi) as [Ef|]; [|lia]. rewrite Ef. unfold G at 1. destruct (Z.eqb_spec (t + 1) 0); [lia|].
      replace (nth i k 0%Z * Z.of_nat f + (t + 1) - 1)%Z with (nth i k 0%Z * Z.of_nat f + t)%Z by lia. f_equal. f_equal. unfold G. destruct (Z.eqb_spec t 0) as [->|N]; [rewrite Z.add_0_r; reflexivity|].
      rewrite nbr_inside; [| exact Ho | exact Hax | rewrite nth_upd_same by exact Lf; fold s; fold n; nia]. rewrite nth_upd_same by exact Lf. rewrite upd_upd_same. reflexivity.
    - rewrite rsum_telescope. unfold G. destruct (Z.eqb_spec (Z.of_nat f) 0); [lia|]. destruct (Z.eqb_spec 0 0); [|lia]. reflexivity. }
  rewrite E. pose proof fbpos. field. repeat split; try exact Hh; apply not_0_INR; lia.
Qed.
End Down.

(** The coarse grid: same domain, [f] times fewer cells along every axis. *)
Definition coarsens (f : nat) (g g' : grid) : Prop :=
  wfg g /\ wfg g' /\ cells_fill_domain g /\ cells_fill_domain g' /\ gdomain g' = gdomain g /\ refines f (gshape g) (gshape g').
Lemma coarse_step f g g' a : (0 < f)%nat -> coarsens f g g' -> (a < gndim g')%nat -> hstep g' a = (INR f * hstep g a)%R.
Proof.
  intros Hf (W & W' & C & C' & D & R) Ha. pose proof (refines_length R) as L. specialize (C' a Ha). specialize (C a ltac:(unfold gndim in *; lia)). rewrite D in C'. rewrite C in C'.
  rewrite (refines_nth R) in C' by exact Ha. rewrite mult_INR in C'. assert (P : (0 < nth a (gshape g') 0)%nat) by (apply allpos_nth; [apply W' | exact Ha]).
  assert (P' : (INR (nth a (gshape g') 0%nat) <> 0)%R) by (apply not_0_INR; lia). apply (Rmult_eq_reg_l (INR (nth a (gshape g') 0%nat))); [|exact P'].
  rewrite <- C'. ring.
Qed.
Lemma face_offset i d : (i < d)%nat -> (nth i (offs i (1 # 2) (repeat (1 # 2) d)) 0 == 1)%Q.
Proof. intros H. unfold offs. rewrite nth_upd_same by (rewrite repeat_length; exact H). rewrite nth_repeat' by exact H. reflexivity. Qed.
Lemma off_eq_intro (o o' : list Q) : length o = length o' -> (forall a, (a < length o)%nat -> (nth a o 0 == nth a o' 0)%Q) -> off_eq o o'.
Proof.
  revert o'. induction o as [|x o IH]; intros [|y o'] L H; cbn in L; try lia; constructor; [exact (H 0%nat ltac:(cbn; lia))|]. apply IH; [lia|]. intros a Ha. exact (H (S a) ltac:(cbn; lia)).
Qed.
Lemma nth_error_ext_local {X} (l l' : list X) : (forall i, nth_error l i = nth_error l' i) -> l = l'.
Proof.
  revert l'. induction l as [|x l IH]; intros [|y l'] H; [reflexivity | discriminate (H 0%nat) | discriminate (H 0%nat)|]. f_equal; [pose proof (H 0%nat) as E; cbn in E; congruence|]. apply IH. intros i. exact (H (S i)).
Qed.
Lemma off_eq_back o i d : (i < d)%nat -> off_eq o (offs i (1 # 2) (repeat (1 # 2)%Q d)) -> off_eq (offs i (- 1 # 2) o) (repeat (1 # 2)%Q d).
Proof.
  intros Hi H. pose proof (F2_length H) as L. unfold offs in L. rewrite upd_length, repeat_length in L.
  apply off_eq_intro; [unfold offs; rewrite upd_length, repeat_length; exact L|]. intros a Ha. unfold offs in Ha |- *. rewrite upd_length in Ha.
  pose proof (off_eq_nth a H) as E. rewrite nth_repeat' by lia. unfold offs in E. destruct (Nat.eq_dec a i) as [->|N].
  - rewrite nth_upd_same in * by (rewrite ?repeat_length; lia). rewrite nth_repeat' in E by lia. rewrite E. reflexivity.
  - rewrite nth_upd_other in * by auto. rewrite nth_repeat' in E by lia. exact E.
Qed.
Lemma staggered_div g v : (0 < gndim g)%nat -> staggered g v -> exists d, divergence v = Ok d /\ is_field d g (repeat (1 # 2)%Q (gndim g)) (divW v g).
Proof.
  intros Hd (L & H). apply div_wall; [exact Hd | exact L|]. intros i u Hu. destruct (H i u Hu) as (W & G & O & _ & A). split; [exact W|]. split; [exact G|].
  assert (Hi : (i < gndim g)%nat) by (rewrite <- L; apply nth_error_Some; congruence).
  split; [destruct A as [A|A]; [left; exact A | right; right; exact A] | apply off_eq_back; assumption].
Qed.
Lemma down_component f g g' i u : (0 < f)%nat -> coarsens f g g' -> (i < gndim g')%nat -> wf_garr (garray u) -> ggrid (garray u) = g -> length (btypes (gbc u)) = gndim g ->
  exists w, downsample_field g g' i (Z.of_nat f) (FVar u) = Ok (FVar w) /\ gbc w = gbc u /\ goff (garray w) = goff (garray u) /\ ggrid (garray w) = g' /\ wf_garr (garray w) /\
    forall k, inb (gshape g') k -> at_ w k = block_mean (face_block f (gndim g') i) (fun j => at_ u (fine_face f i k j)).
Proof.
  intros Hf Hc Hi Hu Hg Hb. pose proof Hc as (W & W' & _ & _ & _ & R). pose proof Hu as (Hwf & Hsh & Hof). rewrite Hg in Hsh, Hof. pose proof (refines_length R) as L.
  unfold downsample_field. unfold grid_eqb. rewrite Hg. destruct (grid_eq_dec g g) as [_|N]; [|congruence]. cbn [negb].
  destruct (@downsample_component_spec_lem (gdata (garray u)) i f (gshape g') Hf) as (a & E & S & V); [rewrite Hsh; exact R | exact Hi|]. rewrite E. cbn [bind].
  unfold mk_gvar. cbn [ggrid]. rewrite Hb. unfold gndim at 1 2. rewrite L, Nat.eqb_refl. cbn [bind].
  eexists. split; [reflexivity|]. cbn [gbc garray goff ggrid]. split; [reflexivity|]. split; [reflexivity|]. split; [reflexivity|]. split; [|exact V].
  split; [exact W'|]. split; [exact S|]. cbn [goff ggrid]. rewrite Hof. exact L.
Qed.

(* @prop C32 Downsampling commutes with divergence: for every staggered velocity (periodic, or bounded by Dirichlet walls of any value along each component's own axis; any condition across) on every grid and every integer factor that divides all its sizes, the downsampled velocity is a staggered velocity on the coarse grid with the same offsets and boundary conditions, and its divergence in every coarse cell is the mean of the fine divergence over the fine cells of that coarse cell. *)
Lemma downsample_divergence_lem : forall f g g' v, (0 < f)%nat -> (0 < gndim g)%nat -> coarsens f g g' -> staggered g v ->
  exists v' d d', downsample_staggered_velocity g g' (map FVar v) = Ok (map FVar v') /\ staggered g' v' /\ map gbc v' = map gbc v /\
    divergence v = Ok d /\ divergence v' = Ok d' /\ shp (gdata d') = gshape g' /\
    forall k, inb (gshape g') k -> get (gdata d') k = block_mean (cell_block f (gndim g')) (fun j => get (gdata d) (fine_cell f k j)).
Proof.
  intros f g g' v Hf Hd Hc Hv. pose proof Hc as (W & W' & C & C' & D & R). pose proof (refines_length R) as L. pose proof Hv as (Lv & Vs).
  assert (Hd' : (0 < gndim g')%nat) by (unfold gndim in *; lia). assert (Eg : gndim g' = gndim g) by (unfold gndim; lia).
  destruct (staggered_div Hd Hv) as (dv & Ed & (_ & _ & _ & Vd)).
  destruct (@mapM_enum field field (fun ju => downsample_field g g' (fst ju) (Z.of_nat f) (snd ju))
     (fun i F => exists u w, nth_error v i = Some u /\ F = FVar w /\ gbc w = gbc u /\ goff (garray w) = goff (garray u) /\ ggrid (garray w) = g' /\ wf_garr (garray w) /\
        forall k, inb (gshape g') k -> at_ w k = block_mean (face_block f (gndim g') i) (fun j => at_ u (fine_face f i k j))) (map FVar v) (FVar dgv)) as (ws & Ew & Lw & Pw).
  { intros i Hi. rewrite map_length in Hi. destruct (nth_error v i) as [u|] eqn:Eu; [|apply nth_error_None in Eu; lia]. destruct (Vs i u Eu) as (A & B & _ & E & _).
    destruct (@down_component f g g' i u Hf Hc ltac:(lia) A B E) as (w & E1 & E2 & E3 & E4 & E5 & E6). exists (FVar w). cbn [fst snd].
    rewrite (nth_indep _ _ (FVar u)) by (rewrite map_length; exact Hi). rewrite map_nth. rewrite (nth_error_nth _ _ _ Eu). split; [exact E1|]. exists u, w. auto 10. }
  rewrite map_length in Lw, Pw.
  set (v' := map (fun F => match F with FVar w => w | _ => dgv end) ws).
  assert (Ev : ws = map FVar v').
  { unfold v'. rewrite map_map. transitivity (map (fun F : field => F) ws); [symmetry; apply map_id|]. apply map_ext_in. intros F HF. destruct (In_nth _ _ (FVar dgv) HF) as (i & Hi & <-).
    destruct (Pw i (FVar dgv) ltac:(lia)) as (u & w & _ & E & _). rewrite E. reflexivity. }
  assert (Lv' : length v' = gndim g) by (unfold v'; rewrite map_length; lia).
  assert (Pv : forall i w, nth_error v' i = Some w -> exists u, nth_error v i = Some u /\ gbc w = gbc u /\ goff (garray w) = goff (garray u) /\ ggrid (garray w) = g' /\ wf_garr (garray w) /\
        forall k, inb (gshape g') k -> at_ w k = block_mean (face_block f (gndim g') i) (fun j => at_ u (fine_face f i k j))).
  { intros i w Hw. assert (Hi : (i < length v)%nat) by (assert (i < length v')%nat by (apply nth_error_Some; congruence); lia). destruct (Pw i (FVar dgv) Hi) as (u & w' & Eu & E & X).
    exists u. split; [exact Eu|]. unfold v' in Hw. rewrite nth_error_map in Hw. rewrite (nth_error_nth' _ (FVar dgv)) in Hw by lia. rewrite E in Hw. cbn [option_map] in Hw. injection Hw as <-. exact X. }
  assert (St : staggered g' v').
  { split; [lia|]. intros i w Hw. destruct (Pv i w Hw) as (u & Eu & B1 & B2 & B3 & B4 & _). destruct (Vs i u Eu) as (A1 & A2 & A3 & A4 & A5). rewrite B1, B2, Eg. auto. }
  destruct (staggered_div Hd' St) as (dv' & Ed' & (_ & _ & Sd' & Vd')).
  exists v', dv, dv'. split.
  { unfold downsample_staggered_velocity. destruct W as (Ls & _ & _ & Nz). destruct W' as (Ls' & _ & _ & _).
    destruct (gstep g) as [|s0 st] eqn:Es; [cbn in Ls; lia|]. destruct (gstep g') as [|d0 st'] eqn:Es'; [cbn in Ls'; lia|].
    pose proof (@coarse_step f g g' 0%nat Hf Hc Hd') as H0. unfold hstep in H0. rewrite Es, Es' in H0. cbn [nth] in H0. assert (N0 : s0 <> 0%R) by (rewrite Forall_forall in Nz; apply Nz; left; reflexivity). rewrite H0.
    destruct (Req_EM_T s0 0) as [Z0|_]; [contradiction|]. unfold eq_domains. rewrite D. destruct (list_eq_dec _ (gdomain g) (gdomain g)) as [_|N]; [|congruence]. cbn [negb].
    replace (INR f * s0 / s0)%R with (INR f) by (field; exact N0). rewrite Int_part_INR, <- INR_IZR_INZ. destruct (Req_EM_T (INR f) (INR f)) as [_|N]; [|congruence].
    rewrite <- Ev. exact Ew. }
  split; [exact St|]. split.
  { apply nth_error_ext_local. intros i. rewrite !nth_error_map. destruct (nth_error v' i) as [w|] eqn:Ew'; [destruct (Pv i w Ew') as (u & Eu & B & _); rewrite Eu; cbn; congruence|].
    apply nth_error_None in Ew'. replace (nth_error v i) with (@None gvar) by (symmetry; apply nth_error_None; lia). reflexivity. }
  split; [exact Ed|]. split; [exact Ed'|]. split; [exact Sd'|]. intros k Hk. rewrite (Vd' k Hk). unfold divW at 1.
  unfold block_mean. rewrite (asum_ext _ _ (fun j => divW v g (fine_cell f k j))).
  2:{ intros j Hj. apply Vd. eapply inb_fine; [exact R | exact Hk | exact Hj]. }
  unfold divW. rewrite asum_nsum. rewrite Eg. unfold Rdiv at 2. rewrite Rmult_comm, <- nsum_scal. apply nsum_ext. intros i Hi. cbv zeta.
  destruct (nth_error v' i) as [w|] eqn:Ew'; [|apply nth_error_None in Ew'; lia]. destruct (Pv i w Ew') as (u & Eu & B1 & B2 & B3 & B4 & B5). destruct (Vs i u Eu) as (A1 & A2 & A3 & A4 & A5).
  rewrite (nth_error_nth _ _ _ Ew'), (nth_error_nth _ _ _ Eu). rewrite (@coarse_step f g g' i Hf Hc) by lia.
  rewrite (@term_mean f i u w (gshape g') Hf ltac:(unfold gndim in *; lia)); [| rewrite A2; exact R | rewrite B3; reflexivity | apply W' | rewrite (off_eq_nth i A3); apply face_offset; exact Hi | exact B2 | exact B1 | exact A5 | exact B5 | exact Hk | ].
  - unfold block_mean. rewrite Rmult_comm. unfold cell_block, gndim. rewrite L. reflexivity.
  - unfold hstep. destruct W as (Ls & _ & _ & Nz). rewrite Forall_forall in Nz. apply Nz. apply nth_In. lia.
Qed.
(* Example: a 4 x 2 grid, periodic along axis 0, a moving lid along axis 1. *)
Definition rzg : grid := mkgrid [4%nat; 2%nat] [(1 / 2)%R; 1%R] [(0%R, 2%R); (0%R, 2%R)].
Definition rzg' : grid := mkgrid [2%nat; 1%nat] [1%R; 2%R] [(0%R, 2%R); (0%R, 2%R)].
Definition rzb : bcs := mkbc [(Periodic, Periodic); (Dirichlet, Dirichlet)] [(None, None); (Some 0%R, Some 3%R)] false.
Definition rzb1 : bcs := mkbc [(Periodic, Periodic); (Dirichlet, Dirichlet)] [(None, None); (Some 1%R, Some 0%R)] false.
Definition rzv : list gvar :=
  [mkgv (mkga (mkarr [4%nat; 2%nat] (fun ix => IZR (nth 0 ix 0 * nth 0 ix 0))) [1; 1 # 2]%Q rzg) rzb;
   mkgv (mkga (mkarr [4%nat; 2%nat] (fun ix => IZR (nth 0 ix 0 * (1 - nth 1 ix 0)))) [1 # 2; 1]%Q rzg) rzb1].
Lemma rz_coarsens : coarsens 2 rzg rzg'.
Proof.
  split; [|split; [|split; [|split; [|split; reflexivity]]]].
  - split; [reflexivity|]. split; [reflexivity|]. split; [repeat constructor; lia|]. repeat constructor; lra.
  - split; [reflexivity|]. split; [reflexivity|]. split; [repeat constructor; lia|]. repeat constructor; lra.
  - intros [|[|a]] Ha; cbn in Ha |- *; try lia; unfold hstep; cbn; lra.
  - intros [|[|a]] Ha; cbn in Ha |- *; try lia; unfold hstep; cbn; lra.
Qed.
Lemma rz_staggered : staggered rzg rzv.
Proof.
  split; [reflexivity|]. pose proof rz_coarsens as (W & _). intros [|[|i]] u Hu; cbn in Hu; [injection Hu as <- | injection Hu as <- | destruct i; discriminate];
    (split; [split; [exact W | split; reflexivity]|]); (split; [reflexivity|]); (split; [repeat constructor; reflexivity|]); (split; [reflexivity|]); [left; reflexivity | right; discriminate].
Qed.
(* @ex *)
Lemma downsample_divergence_ex_lem : (0 < gndim rzg)%nat /\ coarsens 2 rzg rzg' /\ staggered rzg rzv /\ exists d, divergence rzv = Ok d /\ get (gdata d) [2; 0] = 7%R.
Proof.
  split; [cbn; lia|]. split; [exact rz_coarsens|]. split; [exact rz_staggered|]. destruct (@staggered_div rzg rzv ltac:(cbn; lia) rz_staggered) as (d & E & (_ & _ & _ & V)).
  exists d. split; [exact E|]. rewrite V by (cbn; lia). unfold divW, nsum, rzg, gndim. cbn [gshape length seq map lsum fold_right rzv nth].
  rewrite nbr_inside by (try (left; reflexivity); cbn; try lia; reflexivity).
  rewrite (@nbr_low_wall rzb1 _ 1 [2; 0] 1 0) by reflexivity. unfold at_, hstep. cbn. lra.
Qed.

(* @prop C32 Divergence-free staggered velocities stay divergence free under downsampling: for every grid, integer factor dividing its sizes and boundary condition as above, if the divergence vanishes in every fine cell then it vanishes in every coarse cell. *)
Lemma downsample_divergence_free_lem : forall f g g' v d, (0 < f)%nat -> (0 < gndim g)%nat -> coarsens f g g' -> staggered g v ->
  divergence v = Ok d -> (forall ix, inb (gshape g) ix -> get (gdata d) ix = 0%R) ->
  exists v' d', downsample_staggered_velocity g g' (map FVar v) = Ok (map FVar v') /\ divergence v' = Ok d' /\ forall k, inb (gshape g') k -> get (gdata d') k = 0%R.
Proof.
  intros f g g' v d Hf Hd Hc Hv Ed Hz. destruct (@downsample_divergence_lem f g g' v Hf Hd Hc Hv) as (v' & d0 & d' & E & _ & _ & Ed0 & Ed' & _ & V).
  rewrite Ed in Ed0. injection Ed0 as <-. exists v', d'. split; [exact E|]. split; [exact Ed'|]. intros k Hk. rewrite (V k Hk). unfold block_mean. rewrite (asum_ext _ _ (fun _ => 0%R)).
  - rewrite asum_0. unfold Rdiv. ring.
  - intros j Hj. apply Hz. destruct Hc as (_ & _ & _ & _ & _ & R). eapply inb_fine; [exact R | exact Hk | exact Hj].
Qed.
(* A stationary circulation on a 2 x 2 periodic grid. *)
Definition rfg : grid := mkgrid [2%nat; 2%nat] [1%R; 1%R] [(0%R, 2%R); (0%R, 2%R)].
Definition rfg' : grid := mkgrid [1%nat; 1%nat] [2%R; 2%R] [(0%R, 2%R); (0%R, 2%R)].
Definition rfb : bcs := mkbc [(Periodic, Periodic); (Periodic, Periodic)] [(None, None); (None, None)] true.
Definition rfv : list gvar :=
  [mkgv (mkga (mkarr [2%nat; 2%nat] (fun ix => IZR (nth 1 ix 0))) [1; 1 # 2]%Q rfg) rfb;
   mkgv (mkga (mkarr [2%nat; 2%nat] (fun ix => IZR (3 - nth 0 ix 0))) [1 # 2; 1]%Q rfg) rfb].
Lemma rf_coarsens : coarsens 2 rfg rfg'.
Proof.
  split; [|split; [|split; [|split; [|split; reflexivity]]]].
  - split; [reflexivity|]. split; [reflexivity|]. split; [repeat constructor; lia|]. repeat constructor; lra.
  - split; [reflexivity|]. split; [reflexivity|]. split; [repeat constructor; lia|]. repeat constructor; lra.
  - intros [|[|a]] Ha; cbn in Ha |- *; try lia; unfold hstep; cbn; lra.
  - intros [|[|a]] Ha; cbn in Ha |- *; try lia; unfold hstep; cbn; lra.
Qed.
Lemma rf_staggered : staggered rfg rfv.
Proof.
  split; [reflexivity|]. pose proof rf_coarsens as (W & _). intros [|[|i]] u Hu; cbn in Hu; [injection Hu as <- | injection Hu as <- | destruct i; discriminate];
    (split; [split; [exact W | split; reflexivity]|]); (split; [reflexivity|]); (split; [repeat constructor; reflexivity|]); (split; [reflexivity|]); left; reflexivity.
Qed.
(* @ex *)
Lemma downsample_divergence_free_ex_lem : coarsens 2 rfg rfg' /\ staggered rfg rfv /\ exists d, divergence rfv = Ok d /\ forall ix, inb (gshape rfg) ix -> get (gdata d) ix = 0%R.
Proof.
  split; [exact rf_coarsens|]. split; [exact rf_staggered|]. destruct (@staggered_div rfg rfv ltac:(cbn; lia) rf_staggered) as (d & E & (_ & _ & _ & V)).
  exists d. split; [exact E|]. intros ix Hix. rewrite V by exact Hix. destruct ix as [|i [|j [|? ?]]]; cbn in Hix; try tauto. destruct Hix as (Hi & Hj & _).
  unfold divW, nsum, rfg, gndim. cbn [gshape length seq map lsum fold_right rfv nth]. unfold nbr, at_, hstep. cbn -[Z.modulo Z.add IZR Z.of_nat]. lra.
Qed.

(** ** Composition *)
Lemma rsum_mul m n g : rsum (m * n) g = rsum m (fun i => rsum n (fun j => g (i * Z.of_nat n + j)%Z)).
Proof.
  induction m as [|m IH]; [reflexivity|]. replace (S m * n)%nat with (m * n + n)%nat by lia. rewrite rsum_split, IH. cbn [rsum]. f_equal. apply rsum_ext. intros j _. f_equal. lia.
Qed.
Lemma asum_blocks b1 : forall b2 F, length b2 = length b1 ->
  asum (map (fun xy => (fst xy * snd xy)%nat) (combine b2 b1)) F = asum b2 (fun j2 => asum b1 (fun j1 => F (block_ix b1 j2 j1))).
Proof.
  induction b1 as [|n b1 IH]; intros [|m b2] F L; cbn in L; try lia; [reflexivity|]. cbn [combine map asum fst snd block_ix]. rewrite rsum_mul. apply rsum_ext. intros i _.
  rewrite asum_rsum. apply rsum_ext. intros j _. rewrite IH by lia. reflexivity.
Qed.
Lemma asize_blocks b1 : forall b2, length b2 = length b1 -> asize (map (fun xy => (fst xy * snd xy)%nat) (combine b2 b1)) = (asize b2 * asize b1)%nat.
Proof.
  induction b1 as [|n b1 IH]; intros [|m b2] L; cbn in L; try lia; [reflexivity|]. cbn [combine map asize fold_right fst snd]. fold (asize b2) (asize b1).
  change (fold_right Nat.mul 1%nat (map (fun xy => (fst xy * snd xy)%nat) (combine b2 b1))) with (asize (map (fun xy => (fst xy * snd xy)%nat) (combine b2 b1))). rewrite IH by lia. nia.
Qed.

(* @prop C32 Downsampling by f1 and then by f2 gives the same component as downsampling once by f1*f2, for all factors, directions, ranks and data. *)
Lemma downsample_compose_lem : forall (u : arr R) (a f1 f2 : nat) (coarse : list nat), (0 < f1)%nat -> (0 < f2)%nat -> refines (f1 * f2) (shp u) coarse -> (a < length coarse)%nat ->
  exists w1 w2 w12, downsample_staggered_velocity_component u a (Z.of_nat f1) = Ok w1 /\ downsample_staggered_velocity_component w1 a (Z.of_nat f2) = Ok w2 /\
    downsample_staggered_velocity_component u a (Z.of_nat (f1 * f2)) = Ok w12 /\ shp w12 = coarse /\ aeq w2 w12.
Proof.
  intros u a f1 f2 s H1 H2 R Ha. set (mid := map (fun n => (f2 * n)%nat) s). assert (R2 : refines f2 mid s) by reflexivity.
  assert (R1 : refines f1 (shp u) mid) by (unfold refines, mid in *; rewrite R, map_map; apply map_ext; intros x; lia). assert (Lm : length mid = length s) by apply map_length.
  destruct (@downsample_component_spec_lem u a f1 mid H1 R1 ltac:(lia)) as (w1 & E1 & S1 & V1).
  destruct (@downsample_component_spec_lem w1 a f2 s H2 ltac:(rewrite S1; exact R2) Ha) as (w2 & E2 & S2 & V2).
  destruct (@downsample_component_spec_lem u a (f1 * f2) s ltac:(nia) R Ha) as (w12 & E12 & S12 & V12).
  exists w1, w2, w12. split; [exact E1|]. split; [exact E2|]. split; [exact E12|]. split; [exact S12|]. split; [congruence|]. rewrite S2. intros k Hk. rewrite (V2 k Hk), (V12 k Hk). unfold block_mean. rewrite Lm in V1.
  pose proof (inb_length _ _ Hk) as Lk. set (d := length s) in *.
  assert (Hm : forall j, inb (face_block f2 d a) j -> inb mid (fine_face f2 a k j)).
  { intros j Hj. unfold fine_face. pose proof (@inb_nth _ _ a Hk Ha) as X. apply inb_upd_same; [|rewrite (refines_nth R2) by exact Ha; nia].
    apply (@inb_fine f2 mid s k j R2 Hk). fold d. unfold cell_block. unfold face_block in Hj. replace j with (upd a (nth a j 0) j) by apply upd_nth_same.
    assert (Y : nth a j 0 = 0) by (pose proof (@inb_nth _ _ a Hj ltac:(rewrite upd_length, repeat_length; exact Ha)) as Y; rewrite nth_upd_same in Y by (rewrite repeat_length; exact Ha); lia).
    rewrite <- (@upd_nth_same _ a 0%nat (repeat f2 d)), <- (upd_upd_same a (nth a (repeat f2 d) 0%nat) 1%nat). apply inb_upd; [exact Hj | rewrite nth_repeat' by exact Ha; lia]. }
  rewrite (asum_ext (face_block f2 d a) _ (fun j2 => asum (face_block f1 d a) (fun j1 => get u (fine_face f1 a (fine_face f2 a k j2) j1)) * / INR (asize (face_block f1 d a)))%R) by (intros j2 Hj2; rewrite (V1 _ (Hm j2 Hj2)); reflexivity).
  rewrite asum_scal_r.
  assert (Eb : face_block (f1 * f2) d a = map (fun xy => (fst xy * snd xy)%nat) (combine (face_block f2 d a) (face_block f1 d a))).
  { assert (Lf : forall f, length (face_block f d a) = d) by (intros f; unfold face_block; rewrite upd_length, repeat_length; reflexivity).
    assert (Lc : length (combine (face_block f2 d a) (face_block f1 d a)) = d) by (rewrite combine_length, !Lf; apply Nat.min_id).
    apply (list_ext_nth 0%nat); [rewrite map_length, Lc, Lf; reflexivity|]. rewrite Lf. intros c Hc.
    rewrite (@nth_map' _ _ _ (combine (face_block f2 d a) (face_block f1 d a)) c (0%nat, 0%nat) 0%nat) by lia. rewrite combine_nth by (rewrite !Lf; reflexivity). cbn [fst snd]. unfold face_block.
    destruct (Nat.eq_dec c a) as [->|N]; [rewrite !nth_upd_same by (rewrite repeat_length; exact Hc); reflexivity|]. rewrite !nth_upd_other by auto. rewrite !nth_repeat' by exact Hc. lia. }
  assert (Lff : length (face_block f2 d a) = length (face_block f1 d a)) by (unfold face_block; rewrite !upd_length, !repeat_length; reflexivity).
  rewrite Eb, asum_blocks, asize_blocks, mult_INR by exact Lff. unfold Rdiv. rewrite Rinv_mult, Rmult_assoc, (Rmult_comm (/ INR (asize (face_block f1 d a)))). f_equal.
  apply asum_ext. intros j2 Hj2. apply asum_ext. intros j1 Hj1. f_equal.
  pose proof (inb_length _ _ Hj1) as L1. pose proof (inb_length _ _ Hj2) as L2. assert (Lf1 : length (face_block f1 d a) = d) by (unfold face_block; rewrite upd_length, repeat_length; reflexivity).
  unfold fine_face. assert (La : forall f x y, (a < length (fine_cell f x y) <-> a < length x)%nat) by (intros; rewrite fine_cell_length; reflexivity).
  apply (list_ext_nth 0); [rewrite !upd_length, !fine_cell_length, upd_length, fine_cell_length; reflexivity|]. intros c Hc. rewrite upd_length, fine_cell_length, upd_length, fine_cell_length in Hc.
  destruct (Nat.eq_dec c a) as [->|N].
  - rewrite !nth_upd_same by (rewrite ?fine_cell_length, ?upd_length, ?fine_cell_length; exact Hc). nia.
  - rewrite !nth_upd_other by auto. rewrite (fine_cell_nth f1) by (rewrite upd_length, fine_cell_length; exact Hc). rewrite nth_upd_other by auto. rewrite !fine_cell_nth by exact Hc.
    rewrite block_ix_nth by lia. unfold face_block. rewrite nth_upd_other, nth_repeat' by (auto; lia). nia.
Qed.
(* @ex *)
Lemma downsample_compose_ex_lem : let u := mkarr [12%nat; 6%nat] (fun ix => IZR (nth 0 ix 0 * nth 1 ix 0)) in refines (2 * 3) (shp u) [2%nat; 1%nat] /\ (1 < length [2%nat; 1%nat])%nat.
Proof. split; [reflexivity | cbn; lia]. Qed.

(** ** Refusals *)
Definition grid_of (x : field) : option grid := match x with FRaw _ => None | FArray u => Some (ggrid u) | FVar u => Some (ggrid (garray u)) end.
Lemma mapM_not_ok {X Y} (h : X -> result Y) l x : In x l -> (forall y, h x <> Ok y) -> forall ys, mapM h l <> Ok ys.
Proof.
  induction l as [|z l IH]; intros Hin Hx ys E; [destruct Hin|]. cbn [mapM] in E. destruct (h z) as [y|] eqn:Ez; cbn [bind] in E; [|discriminate].
  destruct Hin as [->|Hin]; [exact (Hx y Ez)|]. destruct (mapM h l) as [ys'|] eqn:El; cbn [bind] in E; [|discriminate]. exact (IH Hin Hx ys' eq_refl).
Qed.

(* @prop C32 Downsampling refuses (never returns data): components that live on another grid than the source grid; destination grids with another domain; step ratios that are not integers; components whose size across the direction is not a multiple of the factor. *)
Lemma downsample_refuses_lem : forall g g' s0 d0 st st' v, gstep g = s0 :: st -> gstep g' = d0 :: st' -> (s0 <> 0)%R ->
  ((exists x h, In x v /\ grid_of x = Some h /\ h <> g) -> forall v', downsample_staggered_velocity g g' v <> Ok v') /\
  (gdomain g' <> gdomain g -> downsample_staggered_velocity g g' v = Err EAssert) /\
  ((forall n : Z, IZR n <> d0 / s0)%R -> downsample_staggered_velocity g g' v = Err EAssert) /\
  (forall u a f c, (0 < f)%nat -> (a < length (shp u))%nat -> (c < length (shp u))%nat -> c <> a -> (nth c (shp u) 0 mod f <> 0)%nat -> downsample_staggered_velocity_component u a (Z.of_nat f) = Err EValue).
Proof.
  intros g g' s0 d0 st st' v E E' N0. split; [|split; [|split]].
  - intros (x & h & Hin & Hg & Hne) v' C. unfold downsample_staggered_velocity in C. rewrite E, E' in C. destruct (Req_EM_T s0 0); [discriminate|]. destruct (negb (eq_domains g' g)); [discriminate|].
    destruct (Req_EM_T _ _); [|discriminate]. destruct (In_nth _ _ x Hin) as (k & Hk & Ex).
    apply (@mapM_not_ok _ _ (fun ju => downsample_field g g' (fst ju) (Int_part (d0 / s0)) (snd ju)) (combine (seq 0 (length v)) v) (k, x)) in C; [exact C | |].
    + rewrite <- Ex at 1. replace (k, nth k v x) with (nth k (combine (seq 0 (length v)) v) (0%nat, x)); [apply nth_In; rewrite combine_length, seq_length; lia|].
      rewrite combine_nth by apply seq_length. rewrite seq_nth by exact Hk. reflexivity.
    + intros y Hy. cbn [fst snd] in Hy. unfold downsample_field, grid_eqb in Hy. destruct x as [a|u|u]; cbn [grid_of] in Hg; [discriminate | injection Hg as <- | injection Hg as <-].
      * destruct (grid_eq_dec (ggrid u) g); [contradiction | discriminate].
      * destruct (grid_eq_dec (ggrid (garray u)) g); [contradiction | discriminate].
  - intros D. unfold downsample_staggered_velocity. rewrite E, E'. destruct (Req_EM_T s0 0); [contradiction|]. unfold eq_domains. destruct (list_eq_dec _ (gdomain g') (gdomain g)); [contradiction | reflexivity].
  - intros D. unfold downsample_staggered_velocity. rewrite E, E'. destruct (Req_EM_T s0 0); [contradiction|]. destruct (negb (eq_domains g' g)); [reflexivity|].
    destruct (Req_EM_T (IZR (Int_part (d0 / s0))) (d0 / s0)) as [X|_]; [exfalso; exact (D _ X) | reflexivity].
  - intros u a f c Hf Ha Hc N Hm. unfold downsample_staggered_velocity_component, slice_along_axis. cbn [same_dims forallb negb andb mapM].
    destruct (ndim u =? 0)%nat eqn:E0; [apply Nat.eqb_eq in E0; unfold ndim in E0; lia|].
    rewrite (@denotes_norm (Z.of_nat a) (ndim u) a) by (unfold denotes, ndim; lia). cbn [bind]. unfold index_axis. destruct (Z.leb_spec (Z.of_nat f) 0); [lia|]. cbn [bind]. unfold leaf. cbn [nth_error bind].
    rewrite Nat2Z.id. unfold ndim at 1. rewrite block_sizes. set (b := face_block f (length (shp u)) a).
    assert (Lb : length b = length (shp u)) by (unfold b, face_block; rewrite upd_length, repeat_length; reflexivity).
    assert (Nb : forall k, (k < length (shp u))%nat -> nth k b 0%nat = if (k =? a)%nat then 1%nat else f).
    { intros k Hk. unfold b, face_block. destruct (Nat.eqb_spec k a) as [->|Nk]; [apply nth_upd_same; rewrite repeat_length; exact Ha|]. rewrite nth_upd_other by auto. apply nth_repeat'. exact Hk. }
    unfold block_reduce, ndim. cbn [shp]. rewrite upd_length, Lb, Nat.eqb_refl. cbn [negb].
    destruct (existsb (fun b0 => (b0 =? 0)%nat) b) eqn:X.
    { apply existsb_exists in X. destruct X as (x & Hx & X). apply Nat.eqb_eq in X. subst x. destruct (In_nth _ _ 0%nat Hx) as (k & Hk & X). rewrite Lb in Hk. rewrite Nb in X by exact Hk. destruct (k =? a)%nat; lia. }
    match goal with |- context[forallb ?p ?l] => destruct (forallb p l) eqn:Y end; [|reflexivity]. exfalso. rewrite forallb_forall in Y.
    match type of Y with forall x, In x (combine b ?sw') -> _ => set (sw := sw') in Y end. assert (Ls : length sw = length (shp u)) by (unfold sw; rewrite upd_length; reflexivity).
    assert (In_c : In (nth c (combine b sw) (0%nat, 0%nat)) (combine b sw)) by (apply nth_In; rewrite combine_length; lia). apply Y in In_c. clear Y. rename In_c into Y. rewrite combine_nth in Y by lia. unfold sw in Y.
    cbn [fst snd] in Y. apply Nat.eqb_eq in Y. rewrite Nb in Y by exact Hc. destruct (Nat.eqb_spec c a); [contradiction|]. rewrite nth_upd_other in Y by auto. contradiction.
Qed.
(* @ex *)
Lemma downsample_refuses_ex_lem : let u := mkarr [4%nat; 5%nat] (fun _ => 1%R) in
  gstep rzg = (1 / 2)%R :: [1%R] /\ (exists x h, In x (map FVar rfv) /\ grid_of x = Some h /\ h <> rzg) /\ (forall n : Z, IZR n <> (3 / 4) / (1 / 2))%R /\ (nth 1 (shp u) 0 mod 2 <> 0)%nat.
Proof.
  split; [reflexivity|]. split; [exists (FVar (nth 0 rfv dgv)), rfg; split; [left; reflexivity|]; split; [reflexivity|]; intros C; assert (X : gshape rfg = gshape rzg) by (rewrite C; reflexivity); discriminate X|].
  split; [|vm_compute; discriminate]. intros n C. replace (3 / 4 / (1 / 2))%R with (3 / 2)%R in C by lra. assert (C2 : (IZR (2 * n) = IZR 3)%R) by (rewrite mult_IZR; lra). apply eq_IZR in C2. lia.
Qed.

(* @prop C32 Sizes that are not a multiple of the factor along the direction itself are NOT refused: a 1-d velocity of 5 entries is downsampled by 2 to 2 entries without an error. *)
Lemma downsample_direction_unchecked_refuted_lem :
  ~ (forall (u : arr R) (a f : nat), (0 < f)%nat -> (a < length (shp u))%nat -> (exists c, (c < length (shp u))%nat /\ (nth c (shp u) 0 mod f <> 0)%nat) -> exists e, downsample_staggered_velocity_component u a (Z.of_nat f) = Err e).
Proof.
  intros H. destruct (H (mkarr [5%nat] (fun _ => 0%R)) 0%nat 2%nat) as (e & E); [lia | cbn; lia | exists 0%nat; split; [cbn; lia | vm_compute; discriminate]|].
  unfold downsample_staggered_velocity_component, slice_along_axis in E. cbn [same_dims forallb negb andb mapM ndim shp length Nat.eqb] in E. change (normalize_axis (Z.of_nat 0) 1) with (@Ok nat 0%nat) in E. cbn [bind] in E. unfold index_axis in E. change (Z.of_nat 2 <=? 0) with false in E. cbn [bind] in E.
  unfold leaf in E. cbn [nth_error bind] in E. unfold block_reduce, ndim in E. cbn [shp length upd nth] in E.
  change (slice_count 5 (Some (Z.of_nat 2 - 1)) None (Z.of_nat 2)) with 2%nat in E. cbn [seq map Nat.eqb negb existsb orb combine forallb fst snd andb] in E. change ((2 mod 1)%nat) with 0%nat in E. cbn [Nat.eqb] in E. discriminate E.
Qed.
