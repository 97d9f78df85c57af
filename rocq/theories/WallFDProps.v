(** * Properties C51-C53: finite differences, projection and total divergence with walls *)
From Verif Require Import Prelude NdArr Grids_model Spec Boundaries_model BoundariesPeriodic WallBC PRep FD_model FDProofs PeriodicBCProps WallBCProps ImposeProps FDProps WallFD Pressure_model PressureProps.
From Coq Require Lqa.
Set Implicit Arguments.
Local Open Scope Z_scope.

(* @prop C51 The neighbour values used at walls satisfy the wall conditions: past the wall of a cell-centred axis the ghost value and the cell next to the wall meet the Dirichlet (mean) or Neumann (difference quotient) condition. *)
Lemma neighbours_satisfy_walls_lem : forall b u a t1 v1 t2 v2 ix,
  wf_garr u -> (a < gndim (ggrid u))%nat -> centred u a ->
  lower_wall b a t1 v1 -> upper_wall b a t2 v2 -> (t1 = Dirichlet \/ t1 = Neumann) -> (t2 = Dirichlet \/ t2 = Neumann) ->
  inb (gshape (ggrid u)) ix ->
  (nth a ix 0 = 0 -> wall_holds t1 v1 (hstep (ggrid u) a) (nbr b u a (-1) ix) (get (gdata u) ix)) /\
  (nth a ix 0 = Z.of_nat (nth a (gshape (ggrid u)) 0%nat) - 1 -> wall_holds t2 v2 (hstep (ggrid u) a) (get (gdata u) ix) (nbr b u a 1 ix)).
Proof.
  intros b u a t1 v1 t2 v2 ix Hu Ha Hc H1 H2 Ht1 Ht2 Hix.
  destruct (wall_types H1 H2) as [Eb Ev].
  assert (Hh : hstep (ggrid u) a <> 0%R).
  { destruct Hu as ((Hst & _ & _ & Hnz) & _). unfold hstep. rewrite Forall_forall in Hnz. apply Hnz. apply nth_In. rewrite Hst. exact Ha. }
  pose proof (@inb_nth _ _ a Hix Ha) as Hr.
  unfold nbr. rewrite Eb, Ev, edge_not_half by exact Hc. split; intros Hi.
  - replace (nth a ix 0 + -1 <? 0) with true by (symmetry; apply Z.ltb_lt; lia).
    replace (upd a 0 ix) with ix by (rewrite <- Hi; symmetry; apply upd_nth_same).
    destruct Ht1 as [-> | ->]; destruct Ht2 as [-> | ->]; simpl; field; auto.
  - replace (nth a ix 0 + 1 <? 0) with false by (symmetry; apply Z.ltb_ge; lia).
    replace (Z.of_nat (nth a (gshape (ggrid u)) 0%nat) <=? nth a ix 0 + 1) with true by (symmetry; apply Z.leb_le; lia).
    replace (upd a (Z.of_nat (nth a (gshape (ggrid u)) 0%nat) - 1) ix) with ix by (rewrite <- Hi; symmetry; apply upd_nth_same).
    destruct Ht1 as [-> | ->]; destruct Ht2 as [-> | ->]; simpl; field; auto.
Qed.
(* @ex *)
Lemma neighbours_satisfy_walls_ex_lem :
  wf_garr exu /\ centred exu 1 /\ lower_wall (exb Dirichlet Neumann) 1 Dirichlet 5 /\ upper_wall (exb Dirichlet Neumann) 1 Neumann 7 /\
  inb (gshape (ggrid exu)) [1; 0].
Proof. split; [apply exu_wf|]. split; [apply exu_centred|]. split; [apply exb_lower|]. split; [apply exb_upper|]. simpl. lia. Qed.

(* @prop C51 On every grid and for every mix of periodic, cell-centred walled (Dirichlet/Neumann) and edge-aligned Dirichlet axes, forward, backward and central differences along an axis return the difference quotients of neighbour values, at offsets +1/2, -1/2 and 0. *)
Lemma differences_with_walls_lem : forall u ax,
  wf_garr (garray u) -> (ax < gndim (ggrid (garray u)))%nat -> walled_axis (gbc u) (garray u) ax ->
  let g := ggrid (garray u) in let o := goff (garray u) in
  (exists w, forward_difference u ax = Ok w /\ is_field w g (offs ax (1 # 2) o)
     (fun ix => (nbr (gbc u) (garray u) ax 1 ix - get (gdata (garray u)) ix) / hstep g ax)%R) /\
  (exists w, backward_difference u ax = Ok w /\ is_field w g (offs ax (- 1 # 2) o)
     (fun ix => (get (gdata (garray u)) ix - nbr (gbc u) (garray u) ax (-1) ix) / hstep g ax)%R) /\
  (exists w, central_difference u ax = Ok w /\ is_field w g o
     (fun ix => (nbr (gbc u) (garray u) ax 1 ix - nbr (gbc u) (garray u) ax (-1) ix) / (2 * hstep g ax))%R).
Proof.
  intros u ax Hu Hax Hw g o. split; [apply fwd_wall; auto|]. split; [apply bwd_wall; auto | apply ctr_wall; auto].
Qed.
(* @ex *)
Lemma differences_with_walls_ex_lem :
  wf_garr exu /\ (1 < gndim (ggrid exu))%nat /\ walled_axis (exb Dirichlet Neumann) exu 1 /\ walled_axis (exb Dirichlet Dirichlet) exv 1.
Proof.
  split; [apply exu_wf|]. split; [apply exu_ax|]. split.
  - right; left. split; [apply exu_centred|]. exists Dirichlet, 5%R, Neumann, 7%R. split; [apply exb_lower|]. split; [apply exb_upper|]. auto.
  - right; right. cbn. discriminate.
Qed.

(* @prop C51 laplacian returns, at the variable's own offset, the sum over axes of (upper neighbour - 2 u + lower neighbour) / h^2 for every mix of such axes. *)
Lemma laplacian_with_walls_lem : forall u,
  wf_garr (garray u) -> (forall a, (a < gndim (ggrid (garray u)))%nat -> walled_axis (gbc u) (garray u) a) ->
  exists w, laplacian u = Ok w /\
    is_field w (ggrid (garray u)) (goff (garray u))
      (fun ix => nsum (gndim (ggrid (garray u))) (fun a =>
         (nbr (gbc u) (garray u) a 1 ix - 2 * get (gdata (garray u)) ix + nbr (gbc u) (garray u) a (-1) ix)
           / hstep (ggrid (garray u)) a ^ 2)%R).
Proof. intros u Hu Hw. apply lap_wall; auto. Qed.
Lemma exb_per t1 t2 : periodic_axis (exb t1 t2) 0.
Proof. reflexivity. Qed.
Lemma exu_walled : forall a, (a < gndim (ggrid exu))%nat -> walled_axis (exb Dirichlet Neumann) exu a.
Proof.
  intros [|[|a]] Ha; [left; apply exb_per | | unfold gndim in Ha; simpl in Ha; lia].
  right; left. split; [apply exu_centred|]. exists Dirichlet, 5%R, Neumann, 7%R. split; [apply exb_lower|]. split; [apply exb_upper|]. auto.
Qed.
(* @ex *)
Lemma laplacian_with_walls_ex_lem :
  wf_garr (garray (mkgv exu (exb Dirichlet Neumann))) /\
  (forall a, (a < gndim (ggrid exu))%nat -> walled_axis (exb Dirichlet Neumann) exu a).
Proof. split; [apply exu_wf | apply exu_walled]. Qed.

(** ** Box velocities *)
Lemma box_nth g per v i : box_velocity g per v -> (i < gndim g)%nat -> nth_error v i = Some (nth i v dgv).
Proof. intros (HL & _) Hi. apply nth_error_nth'. lia. Qed.

Lemma box_walled g per v i : box_velocity g per v -> (i < gndim g)%nat ->
  walled_axis (gbc (nth i v dgv)) (garray (nth i v dgv)) i.
Proof.
  intros Hv Hi. destruct Hv as (HL & Hv). destruct (Hv i (nth i v dgv)) as (A & B & C & D & E & G); [apply nth_error_nth'; lia|].
  specialize (E i Hi). destruct (per i) eqn:Ep; [left; exact E|]. right; right. destruct (G eq_refl) as (hi & -> & _). discriminate.
Qed.
Lemma box_off g per v i : box_velocity g per v -> (i < gndim g)%nat ->
  off_eq (offs i (- 1 # 2) (goff (garray (nth i v dgv)))) (cell_center g).
Proof.
  intros Hv Hi. destruct Hv as (HL & Hv). destruct (Hv i (nth i v dgv)) as (A & B & C & D & E & G); [apply nth_error_nth'; lia|].
  eapply off_eq_trans; [apply off_eq_offs; [exact C | reflexivity]|]. apply offs_half_back.
Qed.
Lemma box_div g per v : (0 < gndim g)%nat -> box_velocity g per v ->
  exists w, divergence v = Ok w /\ prep g (cell_center g) (divW v g) w.
Proof.
  intros Hd Hv. apply div_wall; auto; [apply Hv|]. intros i u Hi.
  assert (Hii : (i < gndim g)%nat). { destruct Hv as (HL & _). rewrite <- HL. apply nth_error_Some. congruence. }
  assert (Eu : u = nth i v dgv) by (symmetry; apply nth_error_nth; auto). subst u.
  destruct Hv as (HL & Hv). destruct (Hv i _ Hi) as (A & B & _). split; [exact A|]. split; [exact B|].
  split; [eapply box_walled; eauto; split; eauto | eapply box_off; eauto; split; eauto].
Qed.

(** Lower neighbour of component [i] along [i]. *)
Lemma box_lower g per v i ix : box_velocity g per v -> (i < gndim g)%nat -> inb (gshape g) ix ->
  let u := nth i v dgv in let n := Z.of_nat (nth i (gshape g) 0%nat) in
  nbr (gbc u) (garray u) i (-1) ix =
    if per i then at_ u (upd i ((nth i ix 0 - 1) mod n) ix)
    else if nth i ix 0 =? 0 then (match nth i (bvals (gbc u)) (None, None) with (Some lo, _) => lo | _ => 0%R end)
         else at_ u (upd i (nth i ix 0 - 1) ix).
Proof.
  intros Hv Hi Hix u n. destruct Hv as (HL & Hv). destruct (Hv i u) as (A & B & C & D & E & G); [apply nth_error_nth'; lia|].
  specialize (E i Hi). unfold nbr. rewrite B. fold n. unfold at_. pose proof (@inb_nth _ _ i Hix Hi) as Hr. fold n in Hr.
  destruct (per i).
  - rewrite (nth_error_nth _ _ _ E). destruct (nth i (bvals (gbc u)) (None, None)). reflexivity.
  - destruct (G eq_refl) as (hi & Hed & _). destruct (edge_side_inv _ _ _ Hed) as (Hb & (lo & hi' & Hv2 & _) & _).
    unfold btype in Hb. unfold bval in Hv2. rewrite Hb, Hv2, Hed. cbv zeta beta iota.
    change (nth i ix 0 - 1) with (nth i ix 0 + -1).
    destruct (Z.eqb_spec (nth i ix 0) 0).
    + replace (nth i ix 0 + -1 <? 0) with true by (symmetry; apply Z.ltb_lt; lia). reflexivity.
    + replace (nth i ix 0 + -1 <? 0) with false by (symmetry; apply Z.ltb_ge; lia).
      replace (n - 1 <=? nth i ix 0 + -1) with false by (symmetry; apply Z.leb_gt; lia). reflexivity.
Qed.

(* @prop C53 In a box whose axes are periodic or bounded by walls (component normal to a wall edge-aligned, Dirichlet, same value on both walls, e.g. no penetration), the sum over all cells of the divergence of a staggered velocity is zero on every grid. *)
Lemma box_divergence_total_lem : forall g per v, (0 < gndim g)%nat -> wfg g -> box_velocity g per v ->
  (forall i u lo hi, per i = false -> nth_error v i = Some u -> nth_error (bvals (gbc u)) i = Some (Some lo, Some hi) -> lo = hi) ->
  exists w, divergence v = Ok w /\ is_field w g (repeat (1 # 2)%Q (gndim g)) (get (gdata w)) /\ total (gdata w) = 0%R.
Proof.
  intros g per v Hd Hg Hv Hlh. destruct (box_div Hd Hv) as (w & E & Hw). exists w. split; [exact E|]. split.
  { eapply prep_ext; [|exact Hw]. intros ix Hix. symmetry. apply Hw; auto. }
  rewrite (total_prep Hw). unfold divW. rewrite asum_nsum. apply nsum_zero. intros i Hi. cbv zeta.
  set (u := nth i v dgv). set (N := nth i (gshape g) 0%nat).
  pose proof (box_nth Hv Hi) as Hnu.
  assert (HN : (0 < N)%nat) by (apply allpos_nth; [apply Hg | exact Hi]).
  rewrite asum_axis with (ax := i) by exact Hi. fold N.
  rewrite asum_ext with (g := fun _ => 0%R); [apply asum_0|]. intros ix Hix.
  assert (Hli : (i < length ix)%nat) by (rewrite (inb_length _ _ Hix), upd_length; exact Hi).
  assert (Hin : forall j, 0 <= j < Z.of_nat N -> inb (gshape g) (upd i j ix)).
  { intros j Hj. eapply inb_upd_inv; [exact Hix | exact Hi | exact Hj]. }
  destruct Hv as (HL & Hv). destruct (Hv i u) as (A & B & C & D & Eb & G); [exact Hnu|].
  set (f := fun j => at_ u (upd i j ix)).
  set (pr := fun j => if per i then f ((j - 1) mod Z.of_nat N) else if j =? 0 then f (Z.of_nat N - 1) else f (j - 1)).
  rewrite (@rsum_ext N _ (fun j => (f j - pr j) / hstep g i)%R).
  2:{ intros j Hj. pose proof (@box_lower g per v i (upd i j ix) (conj HL Hv) Hi (Hin j Hj)) as Hbl. cbv zeta in Hbl.
      fold u N in Hbl. rewrite Hbl. rewrite nth_upd_same by auto. rewrite !upd_upd_same. unfold pr, f. f_equal. f_equal.
      destruct (per i) eqn:Ep; [reflexivity|]. destruct (j =? 0); [|reflexivity].
      destruct (G eq_refl) as (hi & He & Hhi). pose proof (edge_side_inv _ _ _ He) as (_ & (lo & hi' & Hv2 & Hhh) & _).
      unfold bval in Hv2. rewrite Hv2. unfold at_. rewrite Hhi; [|apply Hin; lia | rewrite nth_upd_same by auto; reflexivity].
      rewrite Hhh. apply (Hlh i u lo hi'); auto.
      unfold edge_side in He. destruct (nth_error (btypes (gbc u)) i) as [[[] []]|]; try discriminate.
      destruct (nth_error (bvals (gbc u)) i) as [p|] eqn:E2; [|discriminate]. rewrite (nth_error_nth _ _ _ E2) in Hv2. congruence. }
  unfold Rdiv. rewrite rsum_scal_r. rewrite rsum_minus.
  enough (Hs : rsum N pr = rsum N f) by (rewrite Hs; ring).
  rewrite <- (@rsum_mod_shift N (-1) f HN). apply rsum_ext. intros j Hj. change (j + -1) with (j - 1). unfold pr.
  destruct (per i); [reflexivity|]. destruct (Z.eqb_spec j 0) as [->|].
  - f_equal. replace (0 - 1) with (Z.of_nat N - 1 + (-1) * Z.of_nat N) by lia. rewrite Z.mod_add by lia. rewrite Z.mod_small by lia. reflexivity.
  - rewrite Z.mod_small by lia. reflexivity.
Qed.
(** A channel: periodic along x, walls along y; the flow through the interior face is 1. *)
Definition chb : bcs := constant_bc [(Periodic, Periodic); (Dirichlet, Dirichlet)] [(None, None); (Some 0%R, Some 0%R)].
Definition chv : list gvar :=
  [mkgv (mkga (afull [2%nat; 2%nat] 3%R) [1%Q; (1 # 2)%Q] prg) chb;
   mkgv (mkga (mkarr [2%nat; 2%nat] (fun ix => if nth 1 ix 0 =? 0 then 1%R else 0%R)) [(1 # 2)%Q; 1%Q] prg) chb].
Definition chper (a : nat) : bool := (a =? 0)%nat.
Lemma chv_box : box_velocity prg chper chv.
Proof.
  split; [reflexivity|]. intros [|[|[|i]]] u H; simpl in H; try discriminate; injection H as <-.
  - split; [repeat split; repeat constructor; (lia || lra)|]. split; [reflexivity|]. split; [repeat constructor|]. split; [reflexivity|]. split; [|discriminate].
    intros [|[|a]] Ha; cbn; [reflexivity | exists Dirichlet, Dirichlet; split; [reflexivity | discriminate] | unfold gndim in Ha; simpl in Ha; lia].
  - split; [repeat split; repeat constructor; (lia || lra)|]. split; [reflexivity|]. split; [repeat constructor|]. split; [reflexivity|]. split.
    + intros [|[|a]] Ha; cbn; [reflexivity | exists Dirichlet, Dirichlet; split; [reflexivity | discriminate] | unfold gndim in Ha; simpl in Ha; lia].
    + intros _. exists 0%R. split; [reflexivity|]. intros ix _ H. cbn [garray gdata get]. rewrite H. reflexivity.
Qed.
(* @ex *)
Lemma box_divergence_total_ex_lem :
  (0 < gndim prg)%nat /\ wfg prg /\ box_velocity prg chper chv /\
  (forall i u lo hi, chper i = false -> nth_error chv i = Some u -> nth_error (bvals (gbc u)) i = Some (Some lo, Some hi) -> lo = hi).
Proof.
  split; [unfold gndim; simpl; lia|]. split; [apply prg_wf|]. split; [apply chv_box|].
  intros [|[|i]] u lo hi Hp H; simpl in Hp, H; try discriminate; [|destruct i; discriminate]. injection H as <-. cbn. congruence.
Qed.

Lemma pressure_bc_box g per v : (0 < gndim g)%nat -> box_velocity g per v ->
  pressure_bc_from_velocity v = Ok (homogeneous (map (fun a => if per a then (Periodic, Periodic) else (Neumann, Neumann)) (seq 0 (gndim g)))).
Proof.
  intros Hd (HL & HF). destruct v as [|u0 v]; [simpl in HL; lia|].
  assert (Hp : forall c a, In c (u0 :: v) -> (a < gndim g)%nat -> is_periodic_bc c a = per a).
  { intros c a Hc Ha. apply In_nth_error in Hc. destruct Hc as (i & Hc). destruct (HF i c Hc) as (_ & _ & _ & _ & E & _). specialize (E a Ha).
    unfold is_periodic_bc, btype. destruct (per a).
    - rewrite (nth_error_nth _ _ _ E). reflexivity.
    - destruct E as (t1 & t2 & E & Hne). rewrite (nth_error_nth _ _ _ E). destruct t1; try reflexivity. congruence. }
  assert (Hg0 : ggrid (garray u0) = g) by (apply (HF 0%nat); auto).
  assert (E : consistent_bc (u0 :: v) = Ok (map per (seq 0 (gndim g)))).
  { unfold consistent_bc. rewrite Hg0. apply mapM_Ok. intros a Ha. apply in_seq in Ha. rewrite (Hp u0) by (try (left; reflexivity); lia).
    replace (forallb _ v) with true; [reflexivity|]. symmetry. apply forallb_forall. intros c Hc.
    rewrite (Hp c) by (try (right; exact Hc); lia). apply eqb_reflx. }
  unfold pressure_bc_from_velocity. rewrite E. cbn [bind]. rewrite map_map. reflexivity.
Qed.

Section Box.
Variables (g : grid) (per : nat -> bool).
Let pb := homogeneous (map (fun a => if per a then (Periodic, Periodic) else (Neumann, Neumann)) (seq 0 (gndim g))).
Lemma pb_type a : (a < gndim g)%nat -> nth_error (btypes pb) a = Some (if per a then (Periodic, Periodic) else (Neumann, Neumann)).
Proof.
  intros Ha. unfold pb. cbn [homogeneous btypes]. rewrite nth_error_map.
  rewrite (nth_error_nth' (seq 0 (gndim g)) 0%nat) by (rewrite seq_length; auto). rewrite seq_nth by auto. reflexivity.
Qed.
Lemma pb_len : length (btypes pb) = gndim g.
Proof. unfold pb. cbn [homogeneous btypes]. rewrite map_length, seq_length. reflexivity. Qed.
Lemma pb_val a : (a < gndim g)%nat -> nth_error (bvals pb) a = Some (Some 0%R, Some 0%R).
Proof.
  intros Ha. unfold pb. cbn [homogeneous bvals]. rewrite map_length, seq_length. apply nth_error_repeat; auto.
Qed.
Lemma pb_walled q a : ggrid q = g -> off_eq (goff q) (cell_center g) -> (a < gndim g)%nat -> walled_axis pb q a.
Proof.
  intros Hg Ho Ha. destruct (per a) eqn:Ep; [left; unfold periodic_axis; rewrite pb_type by auto; rewrite Ep; reflexivity|].
  right; left. split.
  - unfold centred. rewrite (off_eq_nth a Ho). unfold cell_center. rewrite nth_repeat' by auto. reflexivity.
  - exists Neumann, 0%R, Neumann, 0%R. unfold lower_wall, upper_wall. rewrite pb_type, pb_val, Ep by auto.
    split; [eauto|]. split; [eauto|]. auto.
Qed.
Lemma pb_nbr q a k ix : ggrid q = g -> off_eq (goff q) (cell_center g) -> (a < gndim g)%nat -> (k = 1 \/ k = -1) -> inb (gshape g) ix ->
  let n := Z.of_nat (nth a (gshape g) 0%nat) in
  nbr pb q a k ix = if per a then get (gdata q) (upd a ((nth a ix 0 + k) mod n) ix)
     else if ((nth a ix 0 + k <? 0) || (n <=? nth a ix 0 + k)) then get (gdata q) ix else get (gdata q) (upd a (nth a ix 0 + k) ix).
Proof.
  intros Hg Ho Ha Hk Hix n. unfold nbr. rewrite Hg. fold n. rewrite (nth_error_nth _ _ _ (pb_type Ha)), (nth_error_nth _ _ _ (pb_val Ha)).
  pose proof (@inb_nth _ _ a Hix Ha) as Hr. fold n in Hr.
  destruct (per a); [reflexivity|]. rewrite edge_not_half.
  2:{ rewrite (off_eq_nth a Ho). unfold cell_center. rewrite nth_repeat' by auto. reflexivity. }
  cbv zeta beta iota. destruct (Z.ltb_spec (nth a ix 0 + k) 0).
  - cbn [orb beyond]. replace (upd a 0 ix) with ix; [ring|]. assert (E : nth a ix 0 = 0) by lia. rewrite <- E. symmetry. apply upd_nth_same.
  - destruct (Z.leb_spec n (nth a ix 0 + k)); [|reflexivity]. cbn [orb beyond].
    replace (upd a (n - 1) ix) with ix; [ring|]. assert (E : nth a ix 0 = n - 1) by lia. rewrite <- E. symmetry. apply upd_nth_same.
Qed.

Lemma impose_centred b q : wfg g -> ggrid q = g -> off_eq (goff q) (cell_center g) -> shp (gdata q) = gshape g -> length (btypes b) = gndim g ->
  exists r, impose_bc b q = Ok (mkgv r b) /\ ggrid r = g /\ off_eq (goff r) (cell_center g) /\ shp (gdata r) = gshape g /\
    forall ix, inb (gshape g) ix -> get (gdata r) ix = get (gdata q) ix.
Proof.
  intros Hw Hg Ho Hs HL.
  assert (Hc : forall a, (a < gndim g)%nat -> (nth a (goff q) 0 == 1 # 2)%Q).
  { intros a Ha. rewrite (off_eq_nth a Ho). unfold cell_center. rewrite nth_repeat' by auto. reflexivity. }
  destruct (@impose_bc_sets_wall_entries_lem b q) as (r & E & A & B & C & D).
  - split; [rewrite Hg; auto|]. split; [rewrite Hg; auto|]. rewrite (off_eq_length Ho), Hg. apply cell_center_length.
  - rewrite Hg; auto.
  - rewrite Hg. intros a Ha. right; left. apply Hc; auto.
  - rewrite Hg in *. exists r. split; [exact E|]. split; [congruence|]. split; [eapply off_eq_trans; eauto|]. split; [auto|].
    intros ix Hix. apply D; auto. intros a Ha. unfold wall_value. rewrite edge_not_half; auto.
Qed.
End Box.

(** The wall entries of a component on the faces normal to axis [i]. *)
Lemma face_off g i a : (a < gndim g)%nat -> (nth a (offs i (1 # 2) (cell_center g)) 0 == if (a =? i)%nat then 1 else 1 # 2)%Q.
Proof.
  intros Ha. unfold offs. destruct (Nat.eqb_spec a i) as [->|Hne].
  - rewrite nth_upd_same by (rewrite cell_center_length; auto). unfold cell_center. rewrite nth_repeat' by auto. reflexivity.
  - rewrite nth_upd_other by auto. unfold cell_center. rewrite nth_repeat' by auto. reflexivity.
Qed.

Lemma impose_face g i b d : wfg g -> (i < gndim g)%nat -> ggrid d = g -> off_eq (goff d) (offs i (1 # 2) (cell_center g)) ->
  shp (gdata d) = gshape g -> length (btypes b) = gndim g ->
  (periodic_axis b i \/ exists hi, edge_side b (goff d) i = Some (true, hi) /\
     forall ix, inb (gshape g) ix -> nth i ix 0 = Z.of_nat (nth i (gshape g) 0%nat) - 1 -> get (gdata d) ix = hi) ->
  exists r, impose_bc b d = Ok (mkgv r b) /\ ggrid r = g /\ off_eq (goff r) (goff d) /\ shp (gdata r) = gshape g /\
    forall ix, inb (gshape g) ix -> get (gdata r) ix = get (gdata d) ix.
Proof.
  intros Hw Hi Hg Ho Hs HL Hcase.
  assert (Hc : forall a, (a < gndim g)%nat -> a <> i -> (nth a (goff d) 0 == 1 # 2)%Q).
  { intros a Ha Hne. rewrite (off_eq_nth a Ho), face_off by auto. destruct (Nat.eqb_spec a i); [congruence | reflexivity]. }
  assert (Hoth : forall a ix, (a < gndim g)%nat -> a <> i -> wall_value b d a ix = None).
  { intros a ix Ha Hne. unfold wall_value. rewrite edge_not_half; auto. }
  destruct (@impose_bc_sets_wall_entries_lem b d) as (r & E & A & B & C & D).
  - split; [rewrite Hg; auto|]. split; [rewrite Hg; auto|]. rewrite (off_eq_length Ho), Hg, offs_length. apply cell_center_length.
  - rewrite Hg; auto.
  - rewrite Hg. intros a Ha. destruct (Nat.eq_dec a i) as [->|Hne]; [|right; left; apply Hc; auto].
    destruct Hcase as [Hp | (hi & He & _)]; [left; auto | right; right; congruence].
  - rewrite Hg in *. exists r. split; [exact E|]. split; [congruence|]. split; [exact B|]. split; [auto|].
    intros ix Hix. destruct (D ix Hix) as [D1 D2].
    destruct (wall_value b d i ix) as [v|] eqn:Ev.
    + rewrite (D2 i v Hi Ev) by (intros; apply Hoth; lia).
      unfold wall_value in Ev. destruct Hcase as [Hp | (hi & He & Hh)].
      { unfold edge_side in Ev. unfold periodic_axis in Hp. rewrite Hp in Ev. discriminate. }
      rewrite He in Ev. rewrite Hg in Ev. destruct (Z.eqb_spec (nth i ix 0) (Z.of_nat (nth i (gshape g) 0%nat) - 1)) as [Hn|]; [|discriminate].
      injection Ev as <-. symmetry. apply Hh; auto.
    + apply D1. intros a Ha. destruct (Nat.eq_dec a i) as [->|Hne]; auto.
Qed.

(** Projection in a box: the new divergence is the old one minus the laplacian of the pressure. *)
Lemma projection_box_gen : forall g per v solve q pb dv lq,
  (0 < gndim g)%nat -> wfg g -> box_velocity g per v ->
  pressure_bc_from_velocity v = Ok pb -> (forall q0, solve v q0 pb = Ok q) ->
  wf_garr q -> ggrid q = g -> off_eq (goff q) (repeat (1 # 2)%Q (gndim g)) ->
  divergence v = Ok dv -> laplacian (mkgv q pb) = Ok lq ->
  exists v', projection solve v = Ok v' /\ box_velocity g per v' /\ map gbc v' = map gbc v /\
    (forall i, (i < gndim g)%nat -> is_field (garray (nth i v' dgv)) g (goff (garray (nth i v dgv)))
       (fun ix => get (gdata (garray (nth i v dgv))) ix - (nbr pb q i 1 ix - get (gdata q) ix) / hstep g i)%R) /\
    exists w, divergence v' = Ok w /\ forall ix, inb (gshape g) ix -> get (gdata w) ix = (get (gdata dv) ix - get (gdata lq) ix)%R.
Proof.
  intros g per v solve q pb dv lq Hd Hw Hv Epb Hsolve Hq Hgq Hoq Edv Elq. pose proof Hv as (HL & HF).
  fold (cell_center g) in Hoq.
  rewrite (pressure_bc_box Hd Hv) in Epb. injection Epb as Epb.
  assert (Hpl : length (btypes pb) = gndim g) by (rewrite <- Epb; apply pb_len).
  assert (Hcg : consistent_grid (map garray v) = Ok g).
  { apply consistent_grid_all; [rewrite map_length; lia|]. intros a Ha. apply in_map_iff in Ha. destruct Ha as (x & <- & Hx).
    apply In_nth_error in Hx. destruct Hx as (i & Hx). apply (HF i); auto. }
  assert (Hsq : shp (gdata q) = gshape g) by (rewrite <- Hgq; apply Hq).
  destruct (@impose_centred g pb (mkga (afull (gshape g) 0%R) (cell_center g) g)) as (q0 & E0 & _); auto; [apply off_eq_refl|].
  destruct (@impose_centred g pb q) as (r & Er & Hgr & Hor & Hsr & Hgetr); auto.
  assert (Hr : wf_garr r). { split; [rewrite Hgr; auto|]. split; [congruence|]. rewrite (off_eq_length Hor), Hgr. apply cell_center_length. }
  unfold projection. rewrite Hcg. cbn [bind]. rewrite (pressure_bc_box Hd Hv), Epb. cbn [bind]. rewrite E0. cbn [bind].
  rewrite Hsolve. cbn [bind]. rewrite Er. cbn [bind].
  set (GQ := fun i ix => ((nbr pb r i 1 ix - get (gdata r) ix) / hstep g i)%R).
  assert (Hgrad : exists qg, forward_gradient (mkgv r pb) = Ok qg /\ length qg = gndim g /\
     forall i dw, (i < gndim g)%nat -> prep g (offs i (1 # 2) (cell_center g)) (GQ i) (nth i qg dw)).
  { unfold forward_gradient, all_axes, vndim. cbn [garray]. rewrite Hgr.
    apply (@mapM_seq garr _ (fun i w => prep g (offs i (1 # 2) (cell_center g)) (GQ i) w)). intros i Hii.
    destruct (@fwd_wall (mkgv r pb) i) as (w & Ew & Hww); cbn [garray gbc]; auto; [rewrite Hgr; auto | rewrite <- Epb; apply pb_walled; auto|].
    exists w. split; [exact Ew|]. cbn [garray gbc] in Hww. rewrite Hgr in Hww. eapply prep_off; [apply off_eq_offs; [exact Hor | reflexivity] | exact Hww]. }
  destruct Hgrad as (qg & Eg & HLg & Hqg). rewrite Eg. cbn [bind].
  (* the pressure gradient vanishes on the upper walls *)
  assert (Hwall : forall i ix, (i < gndim g)%nat -> per i = false -> inb (gshape g) ix -> nth i ix 0 = Z.of_nat (nth i (gshape g) 0%nat) - 1 -> GQ i ix = 0%R).
  { intros i ix Hi Hp Hix Hn. unfold GQ. rewrite <- Epb, (@pb_nbr g per r i 1 ix) by auto. rewrite Hp.
    replace (_ <=? nth i ix 0 + 1) with true by (symmetry; apply Z.leb_le; lia). rewrite orb_true_r. unfold Rdiv. ring. }
  destruct (@mapM_combine gvar garr gvar (fun uq => let* d := ga_sub (garray (fst uq)) (snd uq) in impose_bc (gbc (fst uq)) d)
     (fun i w => gbc w = gbc (nth i v dgv) /\ prep g (goff (garray (nth i v dgv))) (fun ix => at_ (nth i v dgv) ix - GQ i ix)%R (garray w) /\
        length (goff (garray w)) = gndim g)
     v qg dgv dga) as (v' & E' & HL' & Hv'); [lia | |].
  { intros i Hii. rewrite HL in Hii. cbn [fst snd]. set (u := nth i v dgv).
    destruct (HF i u (box_nth Hv Hii)) as (A & B & C & D & Eb & G). fold (cell_center g) in C.
    assert (Pu : prep g (goff (garray u)) (at_ u) (garray u)) by (pose proof (@self_prep u A) as P; rewrite B in P; exact P).
    destruct (@prep_op2 Rminus g (goff (garray u)) (at_ u) (GQ i) (garray u) (nth i qg dga)) as (d & Ed & Hdd); auto.
    { eapply prep_off; [apply off_eq_sym; exact C | apply Hqg; auto]. }
    unfold ga_sub. rewrite Ed. cbn [bind].
    destruct Hdd as (Gd & Od & Sd & Vd).
    destruct (@impose_face g i (gbc u) d) as (w & Ew & Gw & Ow & Sw & Vw); auto.
    - eapply off_eq_trans; eauto.
    - specialize (Eb i Hii). destruct (per i) eqn:Ep; [left; exact Eb|]. right. destruct (G eq_refl) as (hi & He & Hh). exists hi.
      split.
      + rewrite <- He. unfold edge_side. destruct (nth_error (btypes (gbc u)) i) as [[[] []]|]; auto. destruct (nth_error (bvals (gbc u)) i) as [[[] []]|]; auto.
        rewrite (Qeqb_comp _ _ (off_eq_nth i Od) 1%Q 1%Q (Qeq_refl 1)), (Qeqb_comp _ _ (off_eq_nth i Od) 0%Q 0%Q (Qeq_refl 0)). reflexivity.
      + intros ix Hix Hn. rewrite Vd by auto. rewrite Hwall by auto. unfold at_. rewrite Hh by auto. ring.
    - exists (mkgv w (gbc u)). split; [exact Ew|]. split; [reflexivity|]. split.
      + split; [auto|]. split; [eapply off_eq_trans; eauto|]. split; [auto|]. intros ix Hix. cbn [garray]. rewrite Vw, Vd by auto. reflexivity.
      + cbn [garray]. rewrite (off_eq_length Ow), (off_eq_length Od). destruct A as (_ & _ & A). rewrite A, B. reflexivity. }
  exists v'. split; [exact E'|].
  assert (Hbc : map gbc v' = map gbc v).
  { apply (list_ext_nth (gbc dgv)); rewrite !map_length; [lia|]. intros k Hk. rewrite !map_nth. apply Hv'. lia. }
  assert (Hbox : box_velocity g per v').
  { split; [lia|]. intros i u' Hu'.
    assert (Hii : (i < gndim g)%nat). { assert (i < length v')%nat by (apply nth_error_Some; congruence). lia. }
    assert (Eu : u' = nth i v' dgv) by (symmetry; apply nth_error_nth; auto).
    destruct (Hv' i dgv ltac:(lia)) as (Hb1 & (P1 & P2 & P3 & P4) & P5). rewrite <- Eu in *.
    set (u := nth i v dgv) in *. destruct (HF i u (box_nth Hv Hii)) as (A & B & C & D & Eb & G). fold (cell_center g) in C.
    split; [split; [rewrite P1; auto | split; [rewrite P1; auto | rewrite P1; auto]]|].
    split; [auto|]. split; [eapply off_eq_trans; eauto|]. rewrite Hb1. split; [auto|]. split; [auto|].
    intros Hp. destruct (G Hp) as (hi & He & Hh). exists hi. split.
    - rewrite <- He. unfold edge_side. destruct (nth_error (btypes (gbc u)) i) as [[[] []]|]; auto. destruct (nth_error (bvals (gbc u)) i) as [[[] []]|]; auto.
      rewrite (Qeqb_comp _ _ (off_eq_nth i P2) 1%Q 1%Q (Qeq_refl 1)), (Qeqb_comp _ _ (off_eq_nth i P2) 0%Q 0%Q (Qeq_refl 0)). reflexivity.
    - intros ix Hix Hn. rewrite P4 by auto. rewrite Hwall by auto. unfold at_. rewrite Hh by auto. ring. }
  assert (HGen : forall i jx, (i < gndim g)%nat -> inb (gshape g) jx -> GQ i jx = Rdiv (Rminus (if per i then get (gdata q) (upd i ((nth i jx 0 + 1) mod Z.of_nat (nth i (gshape g) 0%nat)) jx)
     else if ((nth i jx 0 + 1 <? 0) || (Z.of_nat (nth i (gshape g) 0%nat) <=? nth i jx 0 + 1)) then get (gdata q) jx else get (gdata q) (upd i (nth i jx 0 + 1) jx)) (get (gdata q) jx)) (hstep g i)).
  { intros i jx Hi Hj. unfold GQ. rewrite <- Epb, (@pb_nbr g per r i 1 jx) by auto. rewrite (Hgetr jx Hj).
    pose proof (@inb_nth _ _ i Hj Hi) as Hrj. cbv zeta.
    destruct (per i); [rewrite Hgetr; [reflexivity|]; apply inb_upd_same; auto; apply Z.mod_pos_bound; lia|].
    destruct (_ || _) eqn:Eo; [reflexivity|].
    apply orb_false_iff in Eo as [E1 E2]. apply Z.ltb_ge in E1. apply Z.leb_gt in E2. rewrite Hgetr; [reflexivity|]. apply inb_upd_same; auto. }
  split; [exact Hbox|]. split; [exact Hbc|]. split.
  { intros i Hi. destruct (Hv' i dgv ltac:(lia)) as (_ & (P1 & P2 & P3 & P4) & _). split; [exact P1|]. split; [exact P2|]. split; [exact P3|].
    intros ix Hix. rewrite P4 by exact Hix. rewrite (HGen i ix Hi Hix). rewrite <- Epb, (@pb_nbr g per q i 1 ix) by auto. reflexivity. }
  destruct (box_div Hd Hbox) as (w & Ew & Hww). exists w. split; [exact Ew|]. intros ix Hix.
  destruct Hww as (_ & _ & _ & Vw). rewrite Vw by auto.
  destruct (box_div Hd Hv) as (dv' & Edv' & (_ & _ & _ & Vdv)). rewrite Edv in Edv'. injection Edv' as <-.
  destruct (@lap_wall (mkgv q pb)) as (lq' & Elq' & (_ & _ & _ & Vlq)); cbn [garray gbc] in *; auto.
  { rewrite Hgq. intros a Ha. rewrite <- Epb. apply pb_walled; auto. }
  rewrite Elq in Elq'. injection Elq' as <-. rewrite Hgq in Vlq. specialize (Vlq ix Hix). 
  transitivity (divW v g ix - lapW (mkgv q pb) ix)%R; [|rewrite Vlq, (Vdv ix Hix); reflexivity].
  unfold divW, lapW. cbn [garray gbc]. rewrite Hgq, <- nsum_minus. apply nsum_ext. intros i Hi. cbv zeta.
  destruct (Hv' i dgv ltac:(lia)) as (Hb1 & (P1 & P2 & P3 & P4) & P5).
  pose proof (@box_lower g per v' i ix Hbox Hi Hix) as L'. pose proof (@box_lower g per v i ix Hv Hi Hix) as L. cbv zeta in L, L'. rewrite L, L', Hb1.
  set (u := nth i v dgv) in *. set (u' := nth i v' dgv) in *. set (N := nth i (gshape g) 0%nat) in *.
  pose proof (@inb_nth _ _ i Hix Hi) as Hrg. fold N in Hrg.
  assert (Hli : (i < length ix)%nat) by (rewrite (inb_length _ _ Hix); exact Hi).
  assert (Hat : forall jx, inb (gshape g) jx -> at_ u' jx = (at_ u jx - GQ i jx)%R) by (intros jx Hj; apply P4; auto).
  assert (Hh : hstep g i <> 0%R).
  { destruct Hw as (Hst & _ & _ & Hnz). unfold hstep. rewrite Forall_forall in Hnz. apply Hnz. apply nth_In. rewrite Hst. exact Hi. }
  assert (Hin : forall j, 0 <= j < Z.of_nat N -> inb (gshape g) (upd i j ix)) by (intros j Hj; apply inb_upd_same; auto).
  rewrite Hat by auto. rewrite <- Epb, !(@pb_nbr g per q i) by auto. fold N.
  pose proof (fun jx Hj => HGen i jx Hi Hj) as HG; fold N in HG.
  rewrite (HG ix Hix). 
  destruct (per i) eqn:Ep.
  - assert (Hm : 0 <= (nth i ix 0 - 1) mod Z.of_nat N < Z.of_nat N) by (apply Z.mod_pos_bound; lia).
    rewrite Hat by (apply Hin; lia). rewrite (HG (upd i ((nth i ix 0 - 1) mod Z.of_nat N) ix)) by (apply Hin; lia).
    rewrite nth_upd_same, upd_upd_same by auto.
    replace (((nth i ix 0 - 1) mod Z.of_nat N + 1) mod Z.of_nat N) with (nth i ix 0).
    2:{ rewrite Zplus_mod_idemp_l. replace (nth i ix 0 - 1 + 1) with (nth i ix 0) by lia. rewrite Z.mod_small; lia. }
    rewrite upd_nth_same. change (nth i ix 0 + -1) with (nth i ix 0 - 1). unfold at_; cbn [garray]; field; auto.
  - change (nth i ix 0 + -1) with (nth i ix 0 - 1).
    replace (nth i ix 0 + 1 <? 0) with false by (symmetry; apply Z.ltb_ge; lia).
    replace (Z.of_nat N <=? nth i ix 0 - 1) with false by (symmetry; apply Z.leb_gt; lia). cbn [orb].
    destruct (Z.eqb_spec (nth i ix 0) 0) as [H0|H0].
    + replace (nth i ix 0 - 1 <? 0) with true by (symmetry; apply Z.ltb_lt; lia). cbn [orb]. unfold at_; cbn [garray]; field; auto.
    + replace (nth i ix 0 - 1 <? 0) with false by (symmetry; apply Z.ltb_ge; lia). cbn [orb].
      rewrite Hat by (apply Hin; lia). rewrite (HG (upd i (nth i ix 0 - 1) ix)) by (apply Hin; lia).
      rewrite nth_upd_same, upd_upd_same by auto. replace (nth i ix 0 - 1 + 1) with (nth i ix 0) by lia. rewrite upd_nth_same.
      replace (nth i ix 0 <? 0) with false by (symmetry; apply Z.ltb_ge; lia).
      replace (Z.of_nat N <=? nth i ix 0) with false by (symmetry; apply Z.leb_gt; lia). cbn [orb]. unfold at_; cbn [garray]; field; auto.
Qed.
(* @prop C52 In a box whose axes are periodic or bounded by walls (normal component Dirichlet, edge-aligned; tangential components with any conditions), if the solver returns a cell-centred q whose laplacian under the pressure boundary conditions inferred from the velocity is the divergence of v, then projection returns a velocity with the same grid, offsets and boundary conditions, still holding the wall values, whose divergence is zero in every cell. *)
Lemma projection_in_box_lem : forall g per v solve q pb dv lq,
  (0 < gndim g)%nat -> wfg g -> box_velocity g per v ->
  pressure_bc_from_velocity v = Ok pb -> (forall q0, solve v q0 pb = Ok q) ->
  wf_garr q -> ggrid q = g -> off_eq (goff q) (repeat (1 # 2)%Q (gndim g)) ->
  divergence v = Ok dv -> laplacian (mkgv q pb) = Ok lq ->
  (forall ix, inb (gshape g) ix -> get (gdata lq) ix = get (gdata dv) ix) ->
  exists v', projection solve v = Ok v' /\ box_velocity g per v' /\ map gbc v' = map gbc v /\
    exists w, divergence v' = Ok w /\ forall ix, inb (gshape g) ix -> get (gdata w) ix = 0%R.
Proof.
  intros g per v solve q pb dv lq Hd Hw Hv Epb Hsolve Hq Hgq Hoq Edv Elq Heq.
  destruct (@projection_box_gen g per v solve q pb dv lq) as (v' & E & Hb & Hm & _ & w & Ew & Vw); auto.
  exists v'. split; [exact E|]. split; [exact Hb|]. split; [exact Hm|]. exists w. split; [exact Ew|]. intros ix Hix. rewrite Vw, Heq by exact Hix. ring.
Qed.
Definition chq : garr := mkga (mkarr [2%nat; 2%nat] (fun ix => if nth 1 ix 0 =? 0 then 0%R else 1%R)) [(1 # 2)%Q; (1 # 2)%Q] prg.
Definition chpb : bcs := homogeneous [(Periodic, Periodic); (Neumann, Neumann)].
(* @ex *)
Lemma projection_in_box_ex_lem :
  (0 < gndim prg)%nat /\ wfg prg /\ box_velocity prg chper chv /\
  pressure_bc_from_velocity chv = Ok chpb /\ wf_garr chq /\ off_eq (goff chq) (repeat (1 # 2)%Q (gndim prg)) /\
  exists dv lq, divergence chv = Ok dv /\ laplacian (mkgv chq chpb) = Ok lq /\ get (gdata dv) [0; 0] = 1%R /\
    forall ix, inb (gshape prg) ix -> get (gdata lq) ix = get (gdata dv) ix.
Proof.
  split; [unfold gndim; simpl; lia|]. split; [apply prg_wf|]. split; [apply chv_box|]. split; [reflexivity|].
  assert (Hq : wf_garr chq) by (repeat split; repeat constructor; (lia || lra)). split; [exact Hq|]. split; [repeat constructor|].
  destruct (@box_div prg chper chv) as (dv & Ed & (_ & _ & _ & Vd)); [unfold gndim; simpl; lia | apply chv_box|].
  destruct (@lap_wall (mkgv chq chpb)) as (lq & El & (_ & _ & _ & Vl)); [exact Hq | |].
  { intros [|[|a]] Ha; [left; reflexivity | | unfold gndim in Ha; simpl in Ha; lia].
    right; left. split; [reflexivity|]. exists Neumann, 0%R, Neumann, 0%R. unfold lower_wall, upper_wall. cbn.
    split; [eauto|]. split; [eauto|]. auto. }
  exists dv, lq. split; [exact Ed|]. split; [exact El|]. split.
  { rewrite Vd by (cbn; lia). cbn. lra. }
  intros ix Hix. rewrite Vl, Vd by auto.
  destruct (inb22 _ Hix) as [<- | [<- | [<- | [<- | []]]]]; cbn; lra.
Qed.
