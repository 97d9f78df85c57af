(** * Finite differences of variables with walls: every neighbour read is [nbr]. *)
From Verif Require Import Prelude NdArr Grids_model Spec Boundaries_model BoundariesPeriodic WallBC PRep FD_model FDProofs PeriodicBCProps WallBCProps ImposeProps FDProps.
From Coq Require Lqa.
Set Implicit Arguments.
Local Open Scope Z_scope.

Lemma edge_not_half b o a : (nth a o 0 == 1 # 2)%Q -> edge_side b o a = None.
Proof.
  intros H. unfold edge_side. destruct (nth_error (btypes b) a) as [[[] []]|]; auto.
  destruct (nth_error (bvals b) a) as [[[] []]|]; auto.
  destruct (Qeq_bool (nth a o 0)%Q 1) eqn:E; [apply Qeq_bool_iff in E; rewrite H in E; discriminate|].
  destruct (Qeq_bool (nth a o 0)%Q 0) eqn:E0; [apply Qeq_bool_iff in E0; rewrite H in E0; discriminate|]. auto.
Qed.

Lemma wall_types b a t1 v1 t2 v2 : lower_wall b a t1 v1 -> upper_wall b a t2 v2 ->
  nth a (btypes b) (BCOther, BCOther) = (t1, t2) /\ nth a (bvals b) (None, None) = (Some v1, Some v2).
Proof.
  intros (t & v & H1 & H2) (t' & v' & H3 & H4). rewrite H1 in H3. injection H3 as <- <-. rewrite H2 in H4. injection H4 as <- <-.
  split; apply nth_error_nth; auto.
Qed.

Lemma beyond_wall_lo t v h x y : (t = Dirichlet \/ t = Neumann) -> h <> 0%R -> wall_holds t v h x y -> x = beyond t v h (-1) y.
Proof. intros [-> | ->] Hh H; simpl in *; [lra|]. apply (Rmult_eq_compat_r h) in H. unfold Rdiv in H. rewrite Rmult_assoc, Rinv_l in H by auto. lra. Qed.
Lemma beyond_wall_hi t v h x y : (t = Dirichlet \/ t = Neumann) -> h <> 0%R -> wall_holds t v h x y -> y = beyond t v h 1 x.
Proof. intros [-> | ->] Hh H; simpl in *; [lra|]. apply (Rmult_eq_compat_r h) in H. unfold Rdiv in H. rewrite Rmult_assoc, Rinv_l in H by auto. lra. Qed.

(** One-sided trimming of an edge-aligned axis. *)
Lemma trim_right_top b u a : btype b a = (Dirichlet, Dirichlet) -> (offat u a == 1)%Q ->
  (a < length (shp (gdata u)))%nat -> (a < length (goff u))%nat -> ushape u a = gshp u a -> (0 < gshp u a)%nat ->
  trim_padding b u a RightSide = trim_padding b u a Both.
Proof.
  intros Hb Ho Ha Hol Hs Hn. unfold trim_padding.
  assert (E : Qle_bool (offat u a) 0 = false) by (rewrite (Qleb_comp _ _ Ho _ 0%Q (Qeq_refl 0)); reflexivity).
  rewrite E. reflexivity.
Qed.
Lemma trim_left_top b u a : (offat u a == 1)%Q -> ushape u a = gshp u a ->
  trim_padding b u a LeftSide = Ok (u, (0, 0)).
Proof.
  intros Ho Hs. unfold trim_padding. rewrite Hs, Nat.leb_refl.
  assert (E : Qle_bool (offat u a) 0 = false) by (rewrite (Qleb_comp _ _ Ho _ 0%Q (Qeq_refl 0)); reflexivity).
  rewrite E. reflexivity.
Qed.
Lemma trim_right_bot b u a : btype b a = (Dirichlet, Dirichlet) -> (offat u a == 0)%Q -> ushape u a = gshp u a ->
  trim_padding b u a RightSide = Ok (u, (0, 0)).
Proof.
  intros Hb Ho Hs. unfold trim_padding. rewrite Hs, Nat.leb_refl. rewrite andb_false_r. cbn [bind].
  assert (Ep : pos_trim b u a = 0).
  { unfold pos_trim. rewrite Hb. cbn [snd isPer isDir bctype_eqb].
    match goal with |- (if ?c then _ else _) = _ => destruct c eqn:E2 end; [|reflexivity]. exfalso. apply Qle_bool_iff in E2.
    rewrite Ho, Hs in E2. Lqa.lra. }
  rewrite Ep. reflexivity.
Qed.
Lemma trim_left_bot b u a : btype b a = (Dirichlet, Dirichlet) -> (offat u a == 0)%Q ->
  (a < length (shp (gdata u)))%nat -> (a < length (goff u))%nat -> ushape u a = gshp u a -> (0 < gshp u a)%nat ->
  exists w, trim_padding b u a LeftSide = Ok (w, (1, 0)) /\ ggrid w = ggrid u /\ off_eq (goff w) (upd a 1%Q (goff u)) /\
    shp (gdata w) = upd a (gshp u a - 1)%nat (shp (gdata u)) /\
    forall ix, (a < length ix)%nat -> get (gdata w) ix = get (gdata u) (shiftix a 1 ix).
Proof.
  intros Hb Ho Ha Hol Hs Hn. unfold trim_padding. rewrite Hs, Nat.leb_refl.
  assert (E : Qle_bool (offat u a) 0 = true) by (rewrite (Qleb_comp _ _ Ho _ 0%Q (Qeq_refl 0)); reflexivity).
  rewrite E. cbn [andb]. cbv zeta.
  assert (En : neg_trim b u a = -1).
  { unfold neg_trim. rewrite Hb. cbn [fst isPer bctype_eqb].
    rewrite (int_isclose (z := 0)) by (rewrite Ho; reflexivity).
    rewrite (@Qceiling_comp _ 0%Q); [reflexivity|]. rewrite Ho. reflexivity. }
  rewrite En. rewrite bc_trim_spec by lia. cbn [bind].
  change (0 <? 0) with false. cbn [bind Z.opp].
  eexists; split; [reflexivity|]. cbn [ggrid goff gdata shp axmap get]. split; [reflexivity|]. split.
  - apply off_upd_eq. rewrite Ho. reflexivity.
  - rewrite Hs. split; [f_equal; lia|]. intros ix Hix. change (Z.max 0 (- -1)) with 1. reflexivity.
Qed.

(** Padding an edge-aligned Dirichlet axis with constants, after trimming. *)
Lemma pad_const_edge b u a lo hi p q z : bval b a = (Some lo, Some hi) -> (offat u a == inject_Z z)%Q -> 0 <= p -> 0 <= q -> 1 <= p + q ->
  pad_dirichlet b u a (p, q) EXTEND = Ok (axmap a (Z.to_nat (p + Z.of_nat (ushape u a) + q)) (pad1 (NpConstant lo hi) (ushape u a) p) (gdata u)).
Proof.
  intros Hv Ho Hp Hq Hpq. unfold pad_dirichlet. rewrite (int_not_half (z := z)) by auto. rewrite (int_isclose (z := z)) by auto. cbn [fst snd].
  assert (Ec : const_mode (bval b a) (p, q) = Ok (NpConstant lo hi)) by (rewrite Hv; reflexivity).
  assert (En : np_pad (gdata u) a (p, q) (NpConstant lo hi) = Ok (axmap a (Z.to_nat (p + Z.of_nat (ushape u a) + q)) (pad1 (NpConstant lo hi) (ushape u a) p) (gdata u))).
  { unfold np_pad. replace (p <? 0) with false by (symmetry; apply Z.ltb_ge; lia). replace (q <? 0) with false by (symmetry; apply Z.ltb_ge; lia). reflexivity. }
  destruct ((p + q =? 1) || (p + q =? 0)) eqn:E.
  - rewrite Ec. cbn [bind]. exact En.
  - apply orb_false_iff in E as [E1 E2]. apply Z.eqb_neq in E1, E2. replace (1 <? p + q) with true by (symmetry; apply Z.ltb_lt; lia).
    rewrite Ec. cbn [bind]. exact En.
Qed.

Lemma edge_shift b u ax k top v : wf_garr u -> (ax < gndim (ggrid u))%nat -> edge_side b (goff u) ax = Some (top, v) ->
  (k = 1 \/ k = -1) ->
  exists w, bc_shift b u k ax EXTEND = Ok w /\ prep (ggrid u) (offs ax (inject_Z k) (goff u)) (nbr b u ax k) w.
Proof.
  intros (Hw & Hs & Hol) Hax He Hk.
  destruct (edge_side_inv _ _ _ He) as (Hb & (lo & hi & Hv & Hvv) & Ho). fold (offat u ax) in Ho.
  assert (Hn : (0 < gshp u ax)%nat) by (unfold gshp; apply allpos_nth; [apply Hw | exact Hax]).
  assert (Hus : ushape u ax = gshp u ax) by (unfold ushape, gshp; rewrite Hs; reflexivity).
  assert (Hal : (ax < length (shp (gdata u)))%nat) by (rewrite Hs; exact Hax).
  assert (Hao : (ax < length (goff u))%nat) by (rewrite Hol; exact Hax).
  set (n := Z.of_nat (gshp u ax)).
  (* the padded array *)
  assert (HP : exists p, bc_pad_ b u k ax EXTEND = Ok p /\ ggrid p = ggrid u /\
     goff p = upd ax (offat u ax - inject_Z (if k =? 1 then 0 else 1))%Q (goff u) /\
     shp (gdata p) = upd ax (Z.to_nat (n + 1)) (shp (gdata u)) /\
     forall ix, (ax < length ix)%nat -> 0 <= nth ax ix 0 < n + 1 ->
       get (gdata p) ix = let i := nth ax ix 0 - (if k =? 1 then 0 else 1) in
         if (i <? (if top then 0 else if k =? 1 then 0 else 1)) then lo
         else if ((if top then (if k =? 1 then n - 1 else n) else n) <=? i) then hi else get (gdata u) (upd ax i ix)).
  { unfold bc_pad_. replace (ax <? gndim (ggrid u))%nat with true by (symmetry; apply Nat.ltb_lt; auto). cbn [negb].
    destruct Hk as [-> | ->]; [change (1 <? 0) with false; change (0 <=? 1) with true; change (1 =? 1) with true
                              |change (-1 <? 0) with true; change (0 <=? -1) with false; change (-1 =? 1) with false];
      rewrite Hb; cbn [fst snd isPer bctype_eqb Z.opp]; destruct top.
    - rewrite trim_right_top by auto.
      destruct (@trim_both_top b u ax lo hi Hb Hv Ho Hal Hao Hus Hn) as (w & Et & Hg & Hoo & Hsw & Hget). rewrite Et. cbn [bind fst snd].
      change (0 + 0) with 0. change (1 + 1) with 2.
      assert (Euw : ushape w ax = (gshp u ax - 1)%nat) by (unfold ushape; rewrite Hsw, nth_upd_same; auto).
      rewrite (@pad_const_edge b w ax lo hi 0 2 1); auto; try lia; [|unfold offat; rewrite (off_eq_nth ax Hoo); exact Ho].
      cbn [bind]. eexists; split; [reflexivity|]. cbn [ggrid goff gdata shp axmap get]. split; [auto|]. split; [auto|]. rewrite Euw. split.
      + rewrite Hsw, upd_upd_same. f_equal. unfold n. lia.
      + intros ix Hix Hr. unfold pad1. rewrite !Z.sub_0_r. cbv zeta. rewrite Nat2Z.inj_sub by lia. fold n. change (Z.of_nat 1) with 1.
        replace (0 <=? nth ax ix 0) with true by (symmetry; apply Z.leb_le; lia). replace (nth ax ix 0 <? 0) with false by (symmetry; apply Z.ltb_ge; lia). cbn [andb].
        destruct (Z.ltb_spec (nth ax ix 0) (n - 1)); destruct (Z.leb_spec (n - 1) (nth ax ix 0)); try lia; auto. rewrite Hget by (rewrite upd_length; auto). reflexivity.
    - rewrite trim_right_bot by auto. cbn [bind fst snd]. change (0 + 0) with 0. change (1 + 0) with 1.
      rewrite (@pad_const_edge b u ax lo hi 0 1 0); auto; try lia.
      cbn [bind]. eexists; split; [reflexivity|]. cbn [ggrid goff gdata shp axmap get]. split; [auto|]. split; [auto|]. rewrite Hus. fold n. split.
      + f_equal. 
      + intros ix Hix Hr. unfold pad1. rewrite !Z.sub_0_r. cbv zeta. fold n.
        replace (0 <=? nth ax ix 0) with true by (symmetry; apply Z.leb_le; lia). replace (nth ax ix 0 <? 0) with false by (symmetry; apply Z.ltb_ge; lia). cbn [andb].
        destruct (Z.ltb_spec (nth ax ix 0) n); destruct (Z.leb_spec n (nth ax ix 0)); try lia; auto.
    - rewrite trim_left_top by auto. cbn [bind fst snd]. change (1 + 0) with 1. change (0 + 0) with 0.
      rewrite (@pad_const_edge b u ax lo hi 1 0 1); auto; try lia.
      cbn [bind]. eexists; split; [reflexivity|]. cbn [ggrid goff gdata shp axmap get]. split; [auto|]. split; [auto|]. rewrite Hus. fold n. split.
      + f_equal. lia.
      + intros ix Hix Hr. unfold pad1. cbv zeta. fold n.
        destruct (Z.leb_spec 0 (nth ax ix 0 - 1)); destruct (Z.ltb_spec (nth ax ix 0 - 1) n); destruct (Z.leb_spec n (nth ax ix 0 - 1));
          destruct (Z.ltb_spec (nth ax ix 0 - 1) 0); try lia; auto.
    - destruct (@trim_left_bot b u ax Hb Ho Hal Hao Hus Hn) as (w & Et & Hg & Hoo & Hsw & Hget). rewrite Et. cbn [bind fst snd].
      change (0 + 0) with 0. change (1 + 1) with 2.
      assert (Euw : ushape w ax = (gshp u ax - 1)%nat) by (unfold ushape; rewrite Hsw, nth_upd_same; auto).
      rewrite (@pad_const_edge b w ax lo hi 2 0 1); auto; try lia; [|unfold offat; rewrite (off_eq_nth ax Hoo), nth_upd_same by auto; reflexivity].
      cbn [bind]. eexists; split; [reflexivity|]. cbn [ggrid goff gdata shp axmap get]. split; [auto|]. split; [auto|]. rewrite Euw. split.
      + rewrite Hsw, upd_upd_same. f_equal. unfold n. lia.
      + intros ix Hix Hr. unfold pad1. cbv zeta. rewrite Nat2Z.inj_sub by lia. fold n. change (Z.of_nat 1) with 1.
        destruct (Z.leb_spec 0 (nth ax ix 0 - 2)); destruct (Z.ltb_spec (nth ax ix 0 - 2) (n - 1)); destruct (Z.leb_spec n (nth ax ix 0 - 1));
          destruct (Z.ltb_spec (nth ax ix 0 - 1) 1); destruct (Z.ltb_spec (nth ax ix 0 - 2) 0); try lia; cbn [andb]; auto.
        rewrite Hget by (rewrite upd_length; auto). unfold shiftix. rewrite nth_upd_same, upd_upd_same by auto. do 2 f_equal. lia. }
  destruct HP as (p & Ep & Hg & Hoo & Hsp & Hget).
  unfold bc_shift. rewrite Ep. cbn [bind].
  assert (Eup : ushape p ax = Z.to_nat (n + 1)) by (unfold ushape; rewrite Hsp, nth_upd_same; auto).
  rewrite bc_trim_spec by (rewrite Eup; lia).
  eexists; split; [reflexivity|]. split; [|split; [|split]]; cbn [ggrid goff gdata shp axmap get].
  - exact Hg.
  - rewrite Hoo, upd_upd_same. unfold offs. apply off_eq_upd; [apply off_eq_refl|]. unfold offat at 1. rewrite Hoo, nth_upd_same by auto.
    unfold offat. destruct Hk as [-> | ->]; cbn; ring.
  - rewrite Hsp, upd_upd_same, Eup, Hs. replace (Z.to_nat _) with (gshp u ax); [unfold gshp; apply upd_nth_same|]. unfold n. lia.
  - intros ix Hix. assert (Hl : (ax < length ix)%nat) by (rewrite (inb_length _ _ Hix); exact Hax).
    pose proof (@inb_nth _ _ ax Hix Hax) as Hr. fold (gshp u ax) in Hr. fold n in Hr.
    rewrite Hget by (rewrite ?upd_length, ?nth_upd_same by auto; lia).
    cbv zeta. rewrite nth_upd_same by auto. rewrite !upd_upd_same. unfold nbr. unfold btype in Hb. unfold bval in Hv. rewrite Hb, Hv, He. cbv zeta.
    fold (gshp u ax). fold n.
    destruct Hk as [-> | ->]; cbn [Z.eqb Pos.eqb].
    + change (Z.max 0 (- - (1))) with 1. rewrite Z.sub_0_r. destruct top.
      * replace (nth ax ix 0 + 1 <? 0) with false by (symmetry; apply Z.ltb_ge; lia). reflexivity.
      * destruct (Z.ltb_spec (nth ax ix 0 + 1) 0); destruct (Z.ltb_spec (nth ax ix 0 + 1) 1); try lia. reflexivity.
    + change (Z.max 0 (- - -1)) with 0. rewrite Z.add_0_r. change (nth ax ix 0 - 1) with (nth ax ix 0 + -1). destruct top.
      * destruct (Z.ltb_spec (nth ax ix 0 + -1) 0); auto. destruct (Z.leb_spec n (nth ax ix 0 + -1)); destruct (Z.leb_spec (n - 1) (nth ax ix 0 + -1)); try lia; auto.
      * reflexivity.
Qed.

Lemma nbr_shift b u ax k : wf_garr u -> (ax < gndim (ggrid u))%nat -> walled_axis b u ax -> (k = 1 \/ k = -1) ->
  exists w, bc_shift b u k ax EXTEND = Ok w /\ prep (ggrid u) (offs ax (inject_Z k) (goff u)) (nbr b u ax k) w.
Proof.
  intros Hu Hax Hw Hk. destruct Hw as [Hp | [(Hc & t1 & v1 & t2 & v2 & H1 & H2 & Ht1 & Ht2) | He]].
  - assert (Hs : shp (gdata u) = gshape (ggrid u)) by apply Hu.
    destruct (@prep_shift (ggrid u) (goff u) (pval u) b u k ax EXTEND) as (w & E & Hpw).
    + apply Hu.
    + rewrite <- Hs. apply periodic_pval.
    + unfold btype. apply nth_error_nth. exact Hp.
    + exact Hax.
    + apply Hu.
    + apply prep_pval. exact Hs.
    + exists w. split; [exact E|]. eapply prep_ext; [|exact Hpw]. intros ix Hix. cbv beta.
      unfold nbr. rewrite (nth_error_nth _ _ _ Hp). destruct (nth ax (bvals b) (None, None)). cbv beta iota zeta.
      unfold pval. rewrite Hs. unfold shiftix. rewrite wrap_upd by (apply inb_length; auto). rewrite (wrap_inb _ _ Hix). reflexivity.
  - destruct (wall_types H1 H2) as [Eb Ev].
    assert (Hh : hstep (ggrid u) ax <> 0%R).
    { destruct Hu as ((Hst & _ & _ & Hnz) & _). unfold hstep. rewrite Forall_forall in Hnz. apply Hnz. apply nth_In. rewrite Hst. exact Hax. }
    set (n := Z.of_nat (nth ax (gshape (ggrid u)) 0%nat)).
    assert (Hnbr : forall ix, nbr b u ax k ix = if nth ax ix 0 + k <? 0 then beyond t1 v1 (hstep (ggrid u) ax) (-1) (get (gdata u) (upd ax 0 ix))
        else if n <=? nth ax ix 0 + k then beyond t2 v2 (hstep (ggrid u) ax) 1 (get (gdata u) (upd ax (n - 1) ix)) else get (gdata u) (upd ax (nth ax ix 0 + k) ix)).
    { intros ix. unfold nbr. rewrite Eb, Ev. rewrite edge_not_half by exact Hc. destruct Ht1 as [-> | ->]; destruct Ht2 as [-> | ->]; reflexivity. }
    destruct Hk as [-> | ->].
    + destruct (@wall_shift_up_lem b u 1 ax EXTEND t2 v2) as (w & E & Hg & Ho & Hs & Hget); auto; try lia.
      exists w. split; [exact E|]. repeat split; auto. intros ix Hix. destruct (Hget ix Hix) as [Ha Hb]. rewrite Hnbr.
      pose proof (@inb_nth _ _ ax Hix Hax) as Hr. fold n in Hr, Ha, Hb.
      destruct (Z.ltb_spec (nth ax ix 0 + 1) 0); [lia|]. destruct (Z.leb_spec n (nth ax ix 0 + 1)); [|apply Ha; lia].
      apply beyond_wall_hi; auto.
    + destruct (@wall_shift_down_lem b u 1 ax EXTEND t1 v1) as (w & E & Hg & Ho & Hs & Hget); auto; try lia.
      exists w. split; [exact E|]. repeat split; auto. intros ix Hix. destruct (Hget ix Hix) as [Ha Hb]. rewrite Hnbr.
      pose proof (@inb_nth _ _ ax Hix Hax) as Hr. fold n in Hr.
      destruct (Z.leb_spec n (nth ax ix 0 + -1)); [lia|]. destruct (Z.ltb_spec (nth ax ix 0 + -1) 0); [|apply Ha; lia].
      apply beyond_wall_lo; auto. apply Hb. lia.
  - destruct (edge_side b (goff u) ax) as [[top v]|] eqn:Ee; [|congruence]. eapply edge_shift; eauto.
Qed.

(** ** Difference quotients and laplacian through [nbr]. *)
Definition at_ (u : gvar) (ix : list Z) : R := get (gdata (garray u)) ix.
Section WFD.
Variables (u : gvar) (ax : nat).
Let g := ggrid (garray u).
Let o := goff (garray u).
Let F := at_ u.
Let h := hstep g ax.
Hypothesis (Hu : wf_garr (garray u)) (Hax : (ax < gndim g)%nat) (Hw : walled_axis (gbc u) (garray u) ax).

Lemma self_prep : prep g o F (garray u).
Proof. split; [reflexivity|]. split; [apply off_eq_refl|]. split; [apply Hu | auto]. Qed.
Lemma self_prep0 : prep g (offs ax 0%Q o) F (garray u).
Proof. eapply prep_off; [apply off_eq_sym; apply offs_0 | exact self_prep]. Qed.
Lemma up_prep : exists w, gv_shift u 1 ax = Ok w /\ prep g (offs ax (inject_Z 1) o) (nbr (gbc u) (garray u) ax 1) w.
Proof. apply nbr_shift; auto. Qed.
Lemma dn_prep : exists w, gv_shift u (-1) ax = Ok w /\ prep g (offs ax (inject_Z (-1)) o) (nbr (gbc u) (garray u) ax (-1)) w.
Proof. apply nbr_shift; auto. Qed.
Lemma axo : (ax < length o)%nat.
Proof. unfold o. destruct Hu as (_ & _ & ->). exact Hax. Qed.

Lemma fwd_wall : exists w, forward_difference u ax = Ok w /\
  prep g (offs ax (1 # 2) o) (fun ix => (nbr (gbc u) (garray u) ax 1 ix - F ix) / h)%R w.
Proof.
  unfold forward_difference.
  destruct up_prep as (a & Ea & Ha). rewrite Ea. cbn [bind].
  destruct (prep_neg self_prep0) as (nb & En & Hn). rewrite En. cbn [bind].
  destruct (prep_stencil_shifts _ _ _ axo Ha Hn) as (d & Ed & Hd). rewrite Ed. cbn [bind].
  destruct (prep_scalar_r Rdiv (stepat u ax) Hd) as (w & Ew & Hww).
  exists w; split; [exact Ew|].
  eapply prep_off; [|exact Hww]. apply off_eq_offs; [apply off_eq_refl | reflexivity].
Qed.
Lemma bwd_wall : exists w, backward_difference u ax = Ok w /\
  prep g (offs ax (- 1 # 2) o) (fun ix => (F ix - nbr (gbc u) (garray u) ax (-1) ix) / h)%R w.
Proof.
  unfold backward_difference.
  destruct dn_prep as (a & Ea & Ha). rewrite Ea. cbn [bind].
  destruct (prep_neg Ha) as (nb & En & Hn). rewrite En. cbn [bind].
  destruct (prep_stencil_shifts _ _ _ axo self_prep0 Hn) as (d & Ed & Hd). rewrite Ed. cbn [bind].
  destruct (prep_scalar_r Rdiv (stepat u ax) Hd) as (w & Ew & Hww).
  exists w; split; [exact Ew|].
  eapply prep_off; [|exact Hww]. apply off_eq_offs; [apply off_eq_refl | reflexivity].
Qed.
Lemma ctr_wall : exists w, central_difference u ax = Ok w /\
  prep g o (fun ix => (nbr (gbc u) (garray u) ax 1 ix - nbr (gbc u) (garray u) ax (-1) ix) / (2 * h))%R w.
Proof.
  unfold central_difference.
  destruct up_prep as (a & Ea & Ha). rewrite Ea. cbn [bind].
  destruct dn_prep as (b & Eb & Hb). rewrite Eb. cbn [bind].
  destruct (prep_neg Hb) as (nb & En & Hn). rewrite En. cbn [bind].
  destruct (prep_stencil_shifts _ _ _ axo Ha Hn) as (d & Ed & Hd). rewrite Ed. cbn [bind].
  destruct (prep_scalar_r Rdiv (2 * stepat u ax)%R Hd) as (w & Ew & Hww).
  exists w; split; [exact Ew|].
  eapply prep_off; [|exact Hww].
  eapply off_eq_trans; [|apply offs_0 with (ax := ax)]. apply off_eq_offs; [apply off_eq_refl | reflexivity].
Qed.
End WFD.

Definition lapW (u : gvar) (ix : list Z) : R :=
  nsum (gndim (ggrid (garray u))) (fun ax => (nbr (gbc u) (garray u) ax 1 ix - 2 * at_ u ix + nbr (gbc u) (garray u) ax (-1) ix)
     / hstep (ggrid (garray u)) ax ^ 2)%R.

Lemma lap_wall u : wf_garr (garray u) -> (forall a, (a < gndim (ggrid (garray u)))%nat -> walled_axis (gbc u) (garray u) a) ->
  exists w, laplacian u = Ok w /\ prep (ggrid (garray u)) (goff (garray u)) (lapW u) w.
Proof.
  intros Hu Hwl. unfold laplacian, vndim. set (g := ggrid (garray u)) in *. set (o := goff (garray u)).
  set (scales := map (fun h => Rsqr (1 / h)) (gstep g)). unfold ga_scale.
  destruct (prep_scalar_l Rmult (-2)%R (@self_prep u Hu)) as (r0 & E0 & H0). rewrite E0. cbn [bind].
  destruct (prep_scalar_r Rmult (fold_left Rplus scales 0%R) H0) as (r & Er & Hr). rewrite Er. cbn [bind].
  destruct (@foldM_axes g o
     (fun acc ax => let* a := gv_shift u (-1) ax in let* b := gv_shift u 1 ax in
                    let* s := stencil_sum [a; b] in
                    let* t := array_ufunc (raw2 Rmult) [OGA s; OScalar (nth ax scales 0%R)] in ga_add acc t)
     (fun ax ix => (nbr (gbc u) (garray u) ax (-1) ix + nbr (gbc u) (garray u) ax 1 ix) * nth ax scales 0)%R (gndim g)) with
     (acc := r) (G := (fun ix : list Z => -2 * at_ u ix * fold_left Rplus scales 0)%R) as (w & Ew & Hww); auto.
  - intros acc ax G Hax Hacc.
    destruct (@dn_prep u ax) as (a & Ea & Ha); auto. rewrite Ea. cbn [bind].
    destruct (@up_prep u ax) as (b & Eb & Hbb); auto. rewrite Eb. cbn [bind].
    destruct (prep_stencil_shifts _ _ _ (@axo u ax Hu Hax) Ha Hbb) as (s & Es & Hs). rewrite Es. cbn [bind].
    destruct (prep_scalar_r Rmult (nth ax scales 0%R) Hs) as (t & Et & Ht). rewrite Et. cbn [bind].
    assert (Ht' : prep g o (fun ix => (nbr (gbc u) (garray u) ax (-1) ix + nbr (gbc u) (garray u) ax 1 ix) * nth ax scales 0)%R t).
    { eapply prep_off; [|exact Ht]. eapply off_eq_trans; [|apply offs_0 with (ax := ax)].
      apply off_eq_offs; [apply off_eq_refl | reflexivity]. }
    destruct (prep_op2 Rplus Hacc Ht') as (w & Ew & Hww). exists w; split; auto.
  - exists w; split; [exact Ew|]. eapply prep_ext; [|exact Hww].
    intros ix Hi. unfold lapW. fold g. rewrite fold_left_Rplus, lsum_nth.
    destruct Hu as ((Hst & _ & _ & Hnz) & _).
    assert (HL : length scales = gndim g) by (unfold scales; rewrite map_length; auto).
    rewrite HL, Rplus_0_l, <- nsum_scal, <- nsum_plus. apply nsum_ext; intros i Hii.
    unfold scales. rewrite (@nth_map' R R _ (gstep g) i 0%R) by (fold g in Hst; lia).
    fold (hstep g i). assert (hstep g i <> 0%R). { unfold hstep. rewrite Forall_forall in Hnz. apply Hnz. apply nth_In. fold g in Hst. fold g. lia. }
    unfold Rsqr. field. auto.
Qed.

(** Divergence of a vector of variables. *)
Definition divW (v : list gvar) (g : grid) (ix : list Z) : R :=
  nsum (gndim g) (fun i => let u := nth i v dgv in (at_ u ix - nbr (gbc u) (garray u) i (-1) ix) / hstep g i)%R.
Lemma div_wall g o v : (0 < gndim g)%nat -> length v = gndim g ->
  (forall i u, nth_error v i = Some u -> wf_garr (garray u) /\ ggrid (garray u) = g /\ walled_axis (gbc u) (garray u) i /\
     off_eq (offs i (- 1 # 2) (goff (garray u))) o) ->
  exists w, divergence v = Ok w /\ prep g o (divW v g) w.
Proof.
  intros Hd HL Hv. unfold divergence.
  assert (Hcg : consistent_grid (map garray v) = Ok g).
  { apply consistent_grid_all; [rewrite map_length; lia|]. intros a Ha. apply in_map_iff in Ha. destruct Ha as (x & <- & Hx).
    apply In_nth_error in Hx. destruct Hx as (i & Hx). apply (Hv i); auto. }
  rewrite Hcg. cbn [bind]. rewrite HL, Nat.eqb_refl. cbn [negb].
  destruct (@mapM_enum gvar garr (fun au => backward_difference (snd au) (fst au))
              (fun i w => prep g o (fun ix => let u := nth i v dgv in (at_ u ix - nbr (gbc u) (garray u) i (-1) ix) / hstep g i)%R w) v dgv) as (ws & E & HLw & Hws).
  - intros i Hi. destruct (Hv i (nth i v dgv)) as (A & B & C & D); [apply nth_error_nth'; auto|]. cbn [fst snd].
    destruct (@bwd_wall (nth i v dgv) i) as (w & Ew & Hww); auto; [rewrite B; lia|].
    exists w; split; [exact Ew|]. rewrite B in Hww. eapply prep_off; [exact D | exact Hww].
  - rewrite E. cbn [bind].
    destruct (@ga_sum_prep g o (fun i ix => let u := nth i v dgv in (at_ u ix - nbr (gbc u) (garray u) i (-1) ix) / hstep g i)%R ws) as (w & Ew & Hww).
    + lia.
    + intros i Hi. apply Hws. lia.
    + exists w; split; [exact Ew|]. rewrite HLw, HL in Hww. exact Hww.
Qed.
