(** * Properties C08, C10: ghost cells at walls *)
From Verif Require Import Prelude NdArr Grids_model Spec Boundaries_model BoundariesPeriodic WallBC PRep PeriodicBCProps.
Set Implicit Arguments.
Local Open Scope Z_scope.

Ltac QHc := match goal with H : centred _ _ |- _ => unfold centred in H; rewrite H end.

Lemma lower_wall_bt b ax t v : lower_wall b ax t v -> fst (btype b ax) = t /\ fst (bval b ax) = Some v.
Proof.
  intros (t' & v' & H1 & H2). unfold btype, bval.
  rewrite (nth_error_nth _ _ _ H1), (nth_error_nth _ _ _ H2). auto.
Qed.
Lemma upper_wall_bt b ax t v : upper_wall b ax t v -> snd (btype b ax) = t /\ snd (bval b ax) = Some v.
Proof.
  intros (t' & v' & H1 & H2). unfold btype, bval.
  rewrite (nth_error_nth _ _ _ H1), (nth_error_nth _ _ _ H2). auto.
Qed.

Lemma wf_ax u ax : wf_garr u -> (ax < gndim (ggrid u))%nat ->
  (ax < length (shp (gdata u)))%nat /\ (ax < length (goff u))%nat /\ (0 < gshp u ax)%nat /\
  ushape u ax = gshp u ax /\ (nth ax (gstep (ggrid u)) 0 <> 0)%R.
Proof.
  intros ((Hg1 & Hg2 & Hg3 & Hg4) & Hs & Ho) Hax. unfold gndim in *.
  rewrite Hs, Ho. split; [auto|]. split; [auto|]. split; [apply allpos_nth; auto|].
  split; [unfold ushape, gshp; rewrite Hs; reflexivity|].
  rewrite Forall_forall in Hg4. apply Hg4. apply nth_In. rewrite Hg1. auto.
Qed.

Lemma is_aligned_centred b u ax : (offat u ax == 1 # 2)%Q -> (gshp u ax <= ushape u ax)%nat ->
  is_aligned b u ax = Ok tt.
Proof.
  intros Ho Hs. unfold is_aligned.
  assert (Ho' : (offat u ax == (1 # 2) - inject_Z 0)%Q) by (rewrite Ho; reflexivity).
  rewrite (half_not_int Ho'), (half_not_one Ho') by lia. rewrite !andb_false_r.
  replace (_ <? 0)%Z with false by (symmetry; apply Z.ltb_ge; lia). reflexivity.
Qed.

Lemma offs_eq ax q q' o : (q == q')%Q -> off_eq (upd ax (nth ax o 0 + q)%Q o) (offs ax q' o).
Proof. intros H. unfold offs. apply off_upd_eq. rewrite H. reflexivity. Qed.

(** One-sided pads of a full cell-centred array. *)
Lemma pad_lower_full b u w ax mode t v :
  wf_garr u -> (ax < gndim (ggrid u))%nat -> centred u ax -> lower_wall b ax t v -> is_wall t ->
  (1 <= w)%Z -> mode_ok mode w ->
  exists r, bc_pad_ b u (- w) ax mode = Ok r /\ extends u r ax w 0 /\
    forall ix, inb (shp (gdata r)) ix -> (nth ax ix 0 < w)%Z ->
      get (gdata r) ix = ghost_val t (-1) (hstep (ggrid u) ax) v
         (get (gdata r) (upd ax (w + ghost_src mode w (Z.of_nat (gshp u ax)) (nth ax ix 0 - w))%Z ix)).
Proof.
  intros Hu Hax Hc Hw Ht Hw1 Hm.
  destruct (wf_ax Hu Hax) as (H1 & H2 & H3 & H4 & H5). destruct (lower_wall_bt Hw) as [Hb Hv].
  assert (Ho : (offat u ax == (1 # 2) - inject_Z 0)%Q) by (unfold offat; unfold centred in Hc; rewrite Hc; reflexivity).
  destruct (@wall_pad_lower b u w ax mode t v 0 (gshp u ax) 0) as (r & E & Hg & Hor & Hsr & Hget); auto; try lia.
  { rewrite Z.add_0_r; auto. }
  destruct Hu as ((Hg1 & Hg2 & Hg3 & Hg4) & Hs & Hol).
  exists r. split; [exact E|].
  assert (Hidx : forall ix, inb (shp (gdata r)) ix -> (ax < length ix)%nat /\ (0 <= nth ax ix 0 < w + 0 + Z.of_nat (gshp u ax) + 0)%Z).
  { intros ix Hix. pose proof (inb_length _ _ Hix) as HL. rewrite Hsr, upd_length in HL.
    split; [lia|]. pose proof (@inb_nth _ _ ax Hix) as Hn. rewrite Hsr, upd_length in Hn.
    specialize (Hn H1). rewrite nth_upd_same in Hn by auto. lia. }
  assert (Hmid : forall ix, (ax < length ix)%nat -> (w <= nth ax ix 0 < w + Z.of_nat (gshp u ax))%Z ->
     get (gdata r) ix = get (gdata u) (upd ax (nth ax ix 0 - w)%Z ix)).
  { intros ix Hl Hr. rewrite Hget by (auto; lia). cbv zeta. rewrite Z.add_0_r.
    destruct (Z.leb_spec 0 (nth ax ix 0 - w)%Z); [|lia]. rewrite Z.add_0_r. reflexivity. }
  split.
  - unfold extends. split; [auto|]. split; [|split].
    + rewrite Hor. unfold offat. apply offs_eq. reflexivity.
    + rewrite Hsr, Hs. f_equal. unfold gshp. f_equal. lia.
    + intros ix Hix Hr. apply Hmid; [apply Hidx; auto | auto].
  - intros ix Hix Hr. destruct (Hidx _ Hix) as [Hl Hj].
    rewrite Hget by (auto; lia). cbv zeta. rewrite !Z.add_0_r.
    destruct (Z.leb_spec 0 (nth ax ix 0 - w)%Z); [lia|].
    set (s := ghost_src mode w (Z.of_nat (gshp u ax)) (nth ax ix 0 - w)).
    assert (Hsr' : (0 <= s < Z.of_nat (gshp u ax))%Z).
    { unfold s, ghost_src. destruct (_ || _); [apply symm_range; lia|].
      destruct mode; [apply symm_range; lia | unfold edge_index; lia | unfold edge_index; lia]. }
    rewrite Hmid.
    + rewrite nth_upd_same, upd_upd_same by auto. unfold hstep. f_equal. f_equal. f_equal. lia.
    + rewrite upd_length; auto.
    + rewrite nth_upd_same by auto. lia.
Qed.

Lemma pad_upper_win b u w ax mode t v L :
  (ax < length (shp (gdata u)))%nat -> (ax < length (goff u))%nat -> (ax < gndim (ggrid u))%nat ->
  (offat u ax == (1 # 2) - inject_Z L)%Q -> (0 <= L)%Z -> (0 < gshp u ax)%nat ->
  Z.of_nat (ushape u ax) = (L + Z.of_nat (gshp u ax))%Z ->
  upper_wall b ax t v -> is_wall t -> (0 <= w)%Z -> mode_ok mode w ->
  exists r, bc_pad_ b u w ax mode = Ok r /\ ggrid r = ggrid u /\ off_eq (goff r) (goff u) /\
    shp (gdata r) = upd ax (Z.to_nat (L + Z.of_nat (gshp u ax) + w)) (shp (gdata u)) /\
    (forall ix, (ax < length ix)%nat -> (0 <= nth ax ix 0 < L + Z.of_nat (gshp u ax))%Z ->
        get (gdata r) ix = get (gdata u) ix) /\
    forall ix, (ax < length ix)%nat -> (L + Z.of_nat (gshp u ax) <= nth ax ix 0 < L + Z.of_nat (gshp u ax) + w)%Z ->
        get (gdata r) ix = ghost_val t 1 (hstep (ggrid u) ax) v
          (get (gdata r) (upd ax (ghost_src mode w (L + Z.of_nat (gshp u ax)) (nth ax ix 0)) ix)).
Proof.
  intros H1 H2 Hax Ho HL Hn Hs Hw Ht Hw0 Hm. destruct (upper_wall_bt Hw) as [Hb Hv].
  destruct (@wall_pad_upper b u w ax mode t L (gshp u ax) 0) as (r & E & Hg & Hor & Hsr & Hget); auto; try lia.
  { right; eauto. } { rewrite Z.add_0_r; auto. }
  assert (Hmid : forall ix, (ax < length ix)%nat -> (0 <= nth ax ix 0 < L + Z.of_nat (gshp u ax))%Z ->
        get (gdata r) ix = get (gdata u) ix).
  { intros ix Hl Hr. rewrite Hget by (auto; lia). cbv zeta.
    destruct (Z.ltb_spec (nth ax ix 0%Z) (L + Z.of_nat (gshp u ax))); [|lia]. rewrite upd_nth_same. reflexivity. }
  exists r. split; [exact E|]. split; [auto|]. split.
  { rewrite Hor. unfold offat. rewrite <- (upd_nth_same ax 0%Q (goff u)) at 3. apply off_upd_eq.
    change (inject_Z 0) with 0%Q. ring. }
  split; [rewrite Hsr; f_equal; lia|]. split; [exact Hmid|].
  intros ix Hl Hr. rewrite Hget by (auto; lia). cbv zeta. rewrite !Z.add_0_r.
  destruct (Z.ltb_spec (nth ax ix 0%Z) (L + Z.of_nat (gshp u ax))); [lia|].
  set (s := ghost_src mode w (L + Z.of_nat (gshp u ax)) (nth ax ix 0%Z)).
  assert (Hs' : (0 <= s < L + Z.of_nat (gshp u ax))%Z).
  { unfold s, ghost_src. destruct (_ || _); [apply symm_range; lia|].
    destruct mode; [apply symm_range; lia | unfold edge_index; lia | unfold edge_index; lia]. }
  rewrite Hmid; [rewrite Hv; reflexivity | rewrite upd_length; auto | rewrite nth_upd_same by auto; lia].
Qed.

(** Two-sided pad. *)
Lemma pad_pair_full b u lo hi ax mode t1 v1 t2 v2 :
  wf_garr u -> (ax < gndim (ggrid u))%nat -> centred u ax ->
  lower_wall b ax t1 v1 -> is_wall t1 -> upper_wall b ax t2 v2 -> is_wall t2 ->
  (0 <= lo)%Z -> (0 <= hi)%Z -> mode_ok mode lo -> mode_ok mode hi ->
  exists r, bc_pad b u (WPair lo hi) ax mode = Ok r /\ extends u r ax lo hi /\
    let n := Z.of_nat (gshp u ax) in
    (forall ix, inb (shp (gdata r)) ix -> (nth ax ix 0 < lo)%Z ->
      get (gdata r) ix = ghost_val t1 (-1) (hstep (ggrid u) ax) v1
         (get (gdata r) (upd ax (lo + ghost_src mode lo n (nth ax ix 0 - lo))%Z ix))) /\
    (forall ix, inb (shp (gdata r)) ix -> (lo + n <= nth ax ix 0)%Z ->
      get (gdata r) ix = ghost_val t2 1 (hstep (ggrid u) ax) v2
         (get (gdata r) (upd ax (ghost_src mode hi (lo + n) (nth ax ix 0%Z)) ix))).
Proof.
  intros Hu Hax Hc Hw1 Ht1 Hw2 Ht2 Hlo Hhi Hm1 Hm2.
  destruct (wf_ax Hu Hax) as (H1 & H2 & H3 & H4 & H5).
  unfold bc_pad. rewrite is_aligned_centred; [|exact Hc | lia]. cbn [bind].
  assert (Hfirst : exists r1, bc_pad_ b u (- lo) ax mode = Ok r1 /\ extends u r1 ax lo 0 /\
    forall ix, inb (shp (gdata r1)) ix -> (nth ax ix 0 < lo)%Z ->
      get (gdata r1) ix = ghost_val t1 (-1) (hstep (ggrid u) ax) v1
         (get (gdata r1) (upd ax (lo + ghost_src mode lo (Z.of_nat (gshp u ax)) (nth ax ix 0 - lo))%Z ix))).
  { destruct (Z.eq_dec lo 0) as [->|Hlo0].
    - change (- 0)%Z with 0%Z.
      destruct (@pad_upper_win b u 0 ax mode t2 v2 0) as (r & E & Hg & Ho & Hs & Hmid & Hgh); auto; try lia.
      destruct Hu as ((Hg1 & Hg2 & Hg3 & Hg4) & Hsu & Hol).
      exists r. split; [exact E|]. split.
      + split; [auto|]. split.
        * eapply off_eq_trans; [exact Ho|]. unfold offs. rewrite <- (upd_nth_same ax 0%Q (goff u)) at 1. apply off_upd_eq.
          change (inject_Z 0) with 0%Q. ring.
        * rewrite Hs, Hsu. unfold gshp. split; [f_equal; f_equal; lia|].
          intros ix Hix Hj. rewrite Z.sub_0_r, upd_nth_same. apply Hmid.
          -- rewrite (inb_length _ _ Hix), upd_length. auto.
          -- exact Hj.
      + intros ix Hix Hj. exfalso. pose proof (@inb_nth _ _ ax Hix) as Hn.
        rewrite Hs, upd_length in Hn. specialize (Hn H1). lia.
    - apply pad_lower_full; auto. lia. }
  destruct Hfirst as (r1 & E1 & (Hg1 & Ho1 & Hs1 & Hmid1) & Hgh1). rewrite E1. cbn [bind].
  assert (Hsu : shp (gdata u) = gshape (ggrid u)) by apply Hu.
  assert (Hol : length (goff u) = gndim (ggrid u)) by apply Hu.
  assert (HaxS : (ax < length (gshape (ggrid u)))%nat) by auto.
  assert (Hgs : gshp r1 ax = gshp u ax) by (unfold gshp; rewrite Hg1; reflexivity).
  assert (Hus : Z.of_nat (ushape r1 ax) = (lo + Z.of_nat (gshp r1 ax))%Z).
  { unfold ushape. rewrite Hs1, nth_upd_same by auto. unfold gshp. rewrite Hg1. lia. }
  destruct (@pad_upper_win b r1 hi ax mode t2 v2 lo) as (r & E & Hg & Ho & Hs & Hmid & Hgh); auto; try lia.
  { rewrite Hs1, upd_length. auto. }
  { rewrite (off_eq_length Ho1). unfold offs. rewrite upd_length. auto. }
  { rewrite Hg1. auto. }
  { unfold offat. rewrite (@Forall2_nth' _ _ _ _ _ ax 0%Q 0%Q Ho1).
    - unfold offs. rewrite nth_upd_same by auto. QHc. ring.
    - rewrite (off_eq_length Ho1). unfold offs. rewrite upd_length. auto. }
  rewrite Hgs in *. rewrite Hg1 in *.
  assert (Hshr : shp (gdata r) = upd ax (Z.to_nat (lo + Z.of_nat (gshp u ax) + hi)) (gshape (ggrid u))).
  { rewrite Hs, Hs1, upd_upd_same. f_equal. }
  assert (Hidx : forall ix, inb (shp (gdata r)) ix -> (ax < length ix)%nat /\ (0 <= nth ax ix 0 < lo + Z.of_nat (gshp u ax) + hi)%Z).
  { intros ix Hix. pose proof (inb_length _ _ Hix) as HL. rewrite Hshr, upd_length in HL.
    split; [lia|]. pose proof (@inb_nth _ _ ax Hix) as Hn. rewrite Hshr, upd_length in Hn.
    specialize (Hn HaxS). rewrite nth_upd_same in Hn by auto. lia. }
  assert (Hdown : forall ix j, inb (shp (gdata r)) ix -> (0 <= j < lo + Z.of_nat (gshp u ax))%Z -> inb (shp (gdata r1)) (upd ax j ix)).
  { intros ix j Hix Hj. rewrite Hs1. rewrite Hshr in Hix.
    rewrite <- (upd_upd_same ax (Z.to_nat (lo + Z.of_nat (nth ax (gshape (ggrid u)) 0%nat) + 0)) (Z.to_nat (lo + Z.of_nat (gshp u ax) + hi)) (gshape (ggrid u))).
    apply inb_upd; auto. unfold gshp in Hj. lia. }
  exists r. split; [exact E|]. split.
  - split; [auto|]. split; [eapply off_eq_trans; eauto|]. split; [exact Hshr|].
    intros ix Hix Hj. destruct (Hidx _ Hix) as [Hl Hr].
    rewrite Hmid by (auto; unfold gshp; lia).
    apply Hmid1; [|exact Hj]. rewrite <- (upd_nth_same ax 0%Z ix). apply Hdown; auto. unfold gshp; lia.
  - cbv zeta. split.
    + intros ix Hix Hj. destruct (Hidx _ Hix) as [Hl Hr].
      set (s := ghost_src mode lo (Z.of_nat (gshp u ax)) (nth ax ix 0 - lo)).
      assert (Hs' : (0 <= s < Z.of_nat (gshp u ax))%Z).
      { unfold s, ghost_src. destruct (_ || _); [apply symm_range; lia|].
        destruct mode; [apply symm_range; lia | unfold edge_index; lia | unfold edge_index; lia]. }
      rewrite !Hmid; auto; try lia.
      * apply Hgh1; [|exact Hj]. rewrite <- (upd_nth_same ax 0%Z ix). apply Hdown; auto. lia.
      * rewrite upd_length; auto.
      * rewrite nth_upd_same by auto. lia.
    + intros ix Hix Hj. destruct (Hidx _ Hix) as [Hl Hr]. apply Hgh; auto; lia.
Qed.

Lemma ghost_lower_holds t v h g x : is_wall t -> (h <> 0)%R -> g = ghost_val t (-1) h v x -> wall_holds t v h g x.
Proof.
  intros [-> | ->] Hh ->; unfold wall_holds, ghost_val; field; auto.
Qed.
Lemma ghost_upper_holds t v h g x : is_wall t -> (h <> 0)%R -> g = ghost_val t 1 h v x -> wall_holds t v h x g.
Proof.
  intros [-> | ->] Hh ->; unfold wall_holds, ghost_val; field; auto.
Qed.

Lemma ghost_src_extend_lo w n i : (0 < n)%Z -> (- w <= i < 0)%Z -> ghost_src EXTEND w n i = 0%Z.
Proof.
  intros Hn Hi. unfold ghost_src. destruct ((w =? 1) || (w =? 0))%Z eqn:E.
  - apply orb_true_iff in E. rewrite !Z.eqb_eq in E. rewrite symm_lo by lia. lia.
  - apply edge_lo; lia.
Qed.
Lemma ghost_src_extend_hi w n i : (0 < n)%Z -> (n <= i < n + w)%Z -> ghost_src EXTEND w n i = (n - 1)%Z.
Proof.
  intros Hn Hi. unfold ghost_src. destruct ((w =? 1) || (w =? 0))%Z eqn:E.
  - apply orb_true_iff in E. rewrite !Z.eqb_eq in E. rewrite symm_hi by lia. lia.
  - apply edge_hi; lia.
Qed.
Lemma ghost_src_mirror_lo w n i : (- n <= i < 0)%Z -> ghost_src MIRROR w n i = (-1 - i)%Z.
Proof. intros Hi. unfold ghost_src. destruct (_ || _); apply symm_lo; lia. Qed.
Lemma ghost_src_mirror_hi w n i : (n <= i < 2 * n)%Z -> ghost_src MIRROR w n i = (2 * n - 1 - i)%Z.
Proof. intros Hi. unfold ghost_src. destruct (_ || _); apply symm_hi; lia. Qed.
Lemma ghost_src_one mode n i : ghost_src mode 1 n i = symm_index n i.
Proof. reflexivity. Qed.

(* @prop C08 Two-sided MIRROR padding of cell-centred data between Dirichlet walls with values v1 and v2: the original cells are kept, and every ghost cell averages with its mirror image across the wall (when that is a cell of the array) to the wall value. *)
Lemma dirichlet_mirror_padding_lem : forall b u lo hi ax v1 v2,
  wf_garr u -> (ax < gndim (ggrid u))%nat -> centred u ax ->
  lower_wall b ax Dirichlet v1 -> upper_wall b ax Dirichlet v2 -> (0 <= lo)%Z -> (0 <= hi)%Z ->
  let n := Z.of_nat (nth ax (gshape (ggrid u)) 0%nat) in
  exists r, bc_pad b u (WPair lo hi) ax MIRROR = Ok r /\ extends u r ax lo hi /\
    forall ix, inb (shp (gdata r)) ix ->
      (let m := (2 * lo - 1 - nth ax ix 0)%Z in
       (lo <= m < lo + n)%Z -> wall_holds Dirichlet v1 (hstep (ggrid u) ax) (get (gdata r) ix) (get (gdata r) (upd ax m ix))) /\
      (let m := (2 * (lo + n) - 1 - nth ax ix 0)%Z in
       (lo <= m < lo + n)%Z -> wall_holds Dirichlet v2 (hstep (ggrid u) ax) (get (gdata r) (upd ax m ix)) (get (gdata r) ix)).
Proof.
  intros b u lo hi ax v1 v2 Hu Hax Hc H1 H2 Hlo Hhi n.
  destruct (@pad_pair_full b u lo hi ax MIRROR Dirichlet v1 Dirichlet v2) as (r & E & Hext & Hl & Hh); auto;
    try (left; reflexivity || discriminate).
  destruct (wf_ax Hu Hax) as (_ & _ & Hn0 & _ & Hh0).
  exists r. split; [exact E|]. split; [exact Hext|]. intros ix Hix. split; intros m Hm; unfold m in *.
  - apply ghost_lower_holds; [left; reflexivity | exact Hh0 |].
    rewrite (Hl ix Hix) at 1 by lia. fold n in Hm. unfold gshp. fold n.
    rewrite ghost_src_mirror_lo by lia. f_equal. do 2 f_equal. lia.
  - apply ghost_upper_holds; [left; reflexivity | exact Hh0 |].
    rewrite (Hh ix Hix) at 1 by (unfold gshp; fold n; lia). unfold gshp. fold n.
    rewrite ghost_src_mirror_hi by lia. reflexivity.
Qed.

Definition ix2 (a b : Z) : list Z := [a; b].
(** A small channel used by the examples: 2 x 3 cells, periodic in x, walls in y. *)
Definition exg : grid := mkgrid [2%nat; 3%nat] [1%R; (1/2)%R] [(0%R, 2%R); (0%R, (3/2)%R)].
Definition exu : garr := mkga (mkarr [2%nat; 3%nat] (fun ix => IZR (nth 0 ix 0 * 10 + nth 1 ix 0))) [(1 # 2)%Q; (1 # 2)%Q] exg.
Definition exb (t1 t2 : bctype) : bcs := constant_bc [(Periodic, Periodic); (t1, t2)] [(None, None); (Some 5%R, Some 7%R)].
Lemma exu_wf : wf_garr exu.
Proof. repeat split; repeat constructor; (lia || lra). Qed.
Lemma exu_centred : centred exu 1.
Proof. reflexivity. Qed.
Lemma exu_ax : (1 < gndim (ggrid exu))%nat.
Proof. unfold gndim; simpl; lia. Qed.
Lemma exb_lower t1 t2 : lower_wall (exb t1 t2) 1 t1 5.
Proof. exists t2, (Some 7%R). split; reflexivity. Qed.
Lemma exb_upper t1 t2 : upper_wall (exb t1 t2) 1 t2 7.
Proof. exists t1, (Some 5%R). split; reflexivity. Qed.

(* @ex *)
Lemma dirichlet_mirror_padding_ex_lem :
  exists r, bc_pad (exb Dirichlet Dirichlet) exu (WPair 2 1) 1 MIRROR = Ok r /\
    ((get (gdata r) (ix2 1 0) + get (gdata r) (ix2 1 3)) / 2 = 5)%R /\
    ((get (gdata r) (ix2 1 4) + get (gdata r) (ix2 1 5)) / 2 = 7)%R.
Proof.
  destruct (@dirichlet_mirror_padding_lem (exb Dirichlet Dirichlet) exu 2 1 1%nat 5 7 exu_wf exu_ax exu_centred
     (exb_lower _ _) (exb_upper _ _) ltac:(lia) ltac:(lia)) as (r & E & (Hg & Ho & Hs & _) & H).
  exists r. split; [exact E|].
  assert (I : forall j, 0 <= j < 6 -> inb (shp (gdata r)) [1; j]).
  { intros j Hj. rewrite Hs. simpl. lia. }
  destruct (H [1; 0] (I 0 ltac:(lia))) as [Ha _]. destruct (H [1; 5] (I 5 ltac:(lia))) as [_ Hb].
  split; [apply Ha; simpl; lia | apply Hb; simpl; lia].
Qed.

(* @prop C08 Two-sided EXTEND padding (the default mode) of cell-centred data between walls of any kind: the original cells are kept, and every ghost cell satisfies the wall condition together with the cell next to the wall: Dirichlet averages to the value, Neumann has the value as difference quotient. *)
Lemma wall_extend_padding_lem : forall b u lo hi ax t1 v1 t2 v2,
  wf_garr u -> (ax < gndim (ggrid u))%nat -> centred u ax ->
  lower_wall b ax t1 v1 -> upper_wall b ax t2 v2 ->
  (t1 = Dirichlet \/ t1 = Neumann) -> (t2 = Dirichlet \/ t2 = Neumann) -> (0 <= lo)%Z -> (0 <= hi)%Z ->
  let n := Z.of_nat (nth ax (gshape (ggrid u)) 0%nat) in
  exists r, bc_pad b u (WPair lo hi) ax EXTEND = Ok r /\ extends u r ax lo hi /\
    forall ix, inb (shp (gdata r)) ix ->
      ((nth ax ix 0 < lo)%Z ->
         wall_holds t1 v1 (hstep (ggrid u) ax) (get (gdata r) ix) (get (gdata r) (upd ax lo ix))) /\
      ((lo + n <= nth ax ix 0)%Z ->
         wall_holds t2 v2 (hstep (ggrid u) ax) (get (gdata r) (upd ax (lo + n - 1)%Z ix)) (get (gdata r) ix)).
Proof.
  intros b u lo hi ax t1 v1 t2 v2 Hu Hax Hc H1 H2 Ht1 Ht2 Hlo Hhi n.
  destruct (@pad_pair_full b u lo hi ax EXTEND t1 v1 t2 v2) as (r & E & Hext & Hl & Hh); auto;
    try (left; reflexivity || discriminate).
  destruct (wf_ax Hu Hax) as (Hs0 & _ & Hn0 & _ & Hh0).
  exists r. split; [exact E|]. split; [exact Hext|]. intros ix Hix.
  destruct Hext as (_ & _ & Hsh & _).
  assert (Hr : (0 <= nth ax ix 0 < lo + n + hi)%Z).
  { pose proof (@inb_nth _ _ ax Hix) as Hn. rewrite Hsh, upd_length in Hn. specialize (Hn Hax).
    rewrite nth_upd_same in Hn by exact Hax. fold n in Hn. lia. }
  unfold gshp in Hl, Hh, Hn0. fold n in Hl, Hh.
  split; intros Hm.
  - apply ghost_lower_holds; [exact Ht1 | exact Hh0 |].
    rewrite (Hl ix Hix) at 1 by lia. rewrite ghost_src_extend_lo by lia. rewrite Z.add_0_r. reflexivity.
  - apply ghost_upper_holds; [exact Ht2 | exact Hh0 |].
    rewrite (Hh ix Hix) at 1 by lia. rewrite ghost_src_extend_hi by lia. reflexivity.
Qed.
(* @ex *)
Lemma wall_extend_padding_ex_lem :
  exists r, bc_pad (exb Dirichlet Neumann) exu (WPair 2 1) 1 EXTEND = Ok r /\
    ((get (gdata r) (ix2 1 0) + get (gdata r) (ix2 1 2)) / 2 = 5)%R /\
    ((get (gdata r) (ix2 1 5) - get (gdata r) (ix2 1 4)) / (1/2) = 7)%R.
Proof.
  destruct (@wall_extend_padding_lem (exb Dirichlet Neumann) exu 2 1 1%nat Dirichlet 5 Neumann 7 exu_wf exu_ax exu_centred
     (exb_lower _ _) (exb_upper _ _) (or_introl eq_refl) (or_intror eq_refl) ltac:(lia) ltac:(lia)) as (r & E & (Hg & Ho & Hs & _) & H).
  exists r. split; [exact E|].
  assert (I : forall j, 0 <= j < 6 -> inb (shp (gdata r)) [1; j]).
  { intros j Hj. rewrite Hs. simpl. lia. }
  destruct (H [1; 0] (I 0 ltac:(lia))) as [Ha _]. destruct (H [1; 5] (I 5 ltac:(lia))) as [_ Hb].
  split; [apply Ha; simpl; lia | apply Hb; simpl; lia].
Qed.

Lemma mode_ok_1 mode : mode_ok mode 1.
Proof. right; left; reflexivity. Qed.

(* @prop C10 Padding cell-centred data by a single cell below a Dirichlet or Neumann wall, in any mode and whatever the other side carries: the ghost cell and the first cell satisfy the wall condition (for Neumann the one-sided difference across the wall equals the prescribed derivative). *)
Lemma lower_ghost_cell_lem : forall b u ax mode t v,
  wf_garr u -> (ax < gndim (ggrid u))%nat -> centred u ax ->
  lower_wall b ax t v -> (t = Dirichlet \/ t = Neumann) ->
  exists r, bc_pad b u (WInt (-1)) ax mode = Ok r /\ extends u r ax 1 0 /\
    forall ix, inb (shp (gdata r)) ix -> nth ax ix 0%Z = 0%Z ->
      wall_holds t v (hstep (ggrid u) ax) (get (gdata r) ix) (get (gdata r) (next ax ix)).
Proof.
  intros b u ax mode t v Hu Hax Hc Hw Ht.
  destruct (@pad_lower_full b u 1 ax mode t v) as (r & E & Hext & Hl); auto using mode_ok_1; try lia.
  destruct (wf_ax Hu Hax) as (Hs0 & _ & Hn0 & Hus & Hh0).
  exists r. split; [unfold bc_pad; rewrite is_aligned_centred; [exact E | exact Hc | lia]|].
  split; [exact Hext|]. intros ix Hix H0.
  apply ghost_lower_holds; [exact Ht | exact Hh0|]. rewrite (Hl ix Hix) at 1 by lia.
  rewrite H0, ghost_src_one, symm_lo by lia. unfold next, shiftix. rewrite H0. reflexivity.
Qed.
(* @ex *)
Lemma lower_ghost_cell_ex_lem :
  exists r, bc_pad (exb Neumann BCOther) exu (WInt (-1)) 1 EXTEND = Ok r /\
    ((get (gdata r) (ix2 1 1) - get (gdata r) (ix2 1 0)) / (1/2) = 5)%R.
Proof.
  destruct (@lower_ghost_cell_lem (exb Neumann BCOther) exu 1%nat EXTEND Neumann 5 exu_wf exu_ax exu_centred
     (exb_lower _ _) (or_intror eq_refl)) as (r & E & (Hg & Ho & Hs & _) & H).
  exists r. split; [exact E|]. apply (H [1; 0]); [rewrite Hs; simpl; lia | reflexivity].
Qed.

(* @prop C10 The same above the upper wall. *)
Lemma upper_ghost_cell_lem : forall b u ax mode t v,
  wf_garr u -> (ax < gndim (ggrid u))%nat -> centred u ax ->
  upper_wall b ax t v -> (t = Dirichlet \/ t = Neumann) ->
  let n := Z.of_nat (nth ax (gshape (ggrid u)) 0%nat) in
  exists r, bc_pad b u (WInt 1) ax mode = Ok r /\ extends u r ax 0 1 /\
    forall ix, inb (shp (gdata r)) ix -> nth ax ix 0%Z = n ->
      wall_holds t v (hstep (ggrid u) ax) (get (gdata r) (prev ax ix)) (get (gdata r) ix).
Proof.
  intros b u ax mode t v Hu Hax Hc Hw Ht n.
  destruct (wf_ax Hu Hax) as (Hs0 & Ho0 & Hn0 & Hus & Hh0).
  destruct (@pad_upper_win b u 1 ax mode t v 0) as (r & E & Hg & Ho & Hs & Hmid & Hgh); auto using mode_ok_1; try lia.
  exists r. split; [unfold bc_pad; rewrite is_aligned_centred; [exact E | exact Hc | lia]|].
  assert (Hsu : shp (gdata u) = gshape (ggrid u)) by apply Hu.
  unfold gshp in *. fold n in Hs, Hmid, Hgh.
  assert (Hl : forall ix, inb (shp (gdata r)) ix -> (ax < length ix)%nat).
  { intros ix Hix. rewrite (inb_length _ _ Hix), Hs, upd_length. auto. }
  split.
  - split; [auto|]. split.
    { eapply off_eq_trans; [exact Ho|]. unfold offs. rewrite <- (upd_nth_same ax 0%Q (goff u)) at 1. apply off_upd_eq.
      change (inject_Z 0) with 0%Q. ring. }
    split; [rewrite Hs, Hsu; reflexivity|].
    intros ix Hix Hj. rewrite Z.sub_0_r, upd_nth_same. apply Hmid; auto.
  - intros ix Hix H0. apply ghost_upper_holds; [exact Ht | exact Hh0|]. rewrite (Hgh ix) at 1 by (auto; lia).
    rewrite H0, ghost_src_one, symm_hi by lia. unfold prev, shiftix. rewrite H0.
    f_equal. f_equal. f_equal. lia.
Qed.
(* @ex *)
Lemma upper_ghost_cell_ex_lem :
  exists r, bc_pad (exb BCOther Neumann) exu (WInt 1) 1 EXTEND = Ok r /\
    ((get (gdata r) (ix2 1 3) - get (gdata r) (ix2 1 2)) / (1/2) = 7)%R.
Proof.
  destruct (@upper_ghost_cell_lem (exb BCOther Neumann) exu 1%nat EXTEND Neumann 7 exu_wf exu_ax exu_centred
     (exb_upper _ _) (or_intror eq_refl)) as (r & E & (Hg & Ho & Hs & _) & H).
  exists r. split; [exact E|]. apply (H [1; 3]); [rewrite Hs; simpl; lia | reflexivity].
Qed.

Lemma bc_trim_lower r ax k n : (0 <= k)%Z -> Z.of_nat (ushape r ax) = (n + k)%Z -> (0 <= n)%Z ->
  bc_trim r (- k) ax = Ok (mkga (axmap ax (Z.to_nat n) (fun f j => f (j + k)%Z) (gdata r))
     (upd ax (offat r ax + inject_Z k)%Q (goff r)) (ggrid r)).
Proof.
  intros Hk Hs Hn. rewrite bc_trim_spec by lia. rewrite Z.opp_involutive.
  replace (Z.max 0 k) with k by lia. do 3 f_equal. lia.
Qed.
Lemma bc_trim_upper r ax k n : (0 <= k)%Z -> Z.of_nat (ushape r ax) = (n + k)%Z -> (0 <= n)%Z ->
  bc_trim r k ax = Ok (mkga (axmap ax (Z.to_nat n) (fun f j => f (j + 0)%Z) (gdata r))
     (upd ax (offat r ax + inject_Z 0)%Q (goff r)) (ggrid r)).
Proof.
  intros Hk Hs Hn. rewrite bc_trim_spec by lia.
  replace (Z.max 0 (- k)) with 0%Z by lia. do 3 f_equal. lia.
Qed.

(* @prop C08 shift(+k) of cell-centred data towards an upper wall (k >= 1, default mode, or k = 1 in any mode): entries move down by k, offset increases by k, and the k entries that come from beyond the wall satisfy the wall condition together with the last cell. *)
Lemma wall_shift_up_lem : forall b u k ax mode t v,
  wf_garr u -> (ax < gndim (ggrid u))%nat -> centred u ax ->
  upper_wall b ax t v -> (t = Dirichlet \/ t = Neumann) ->
  (1 <= k)%Z -> (mode = EXTEND \/ k = 1%Z) ->
  let n := Z.of_nat (nth ax (gshape (ggrid u)) 0%nat) in
  exists r, bc_shift b u k ax mode = Ok r /\ ggrid r = ggrid u /\
    off_eq (goff r) (offs ax (inject_Z k) (goff u)) /\ shp (gdata r) = gshape (ggrid u) /\
    forall ix, inb (gshape (ggrid u)) ix ->
      ((nth ax ix 0 + k < n)%Z -> get (gdata r) ix = get (gdata u) (shiftix ax k ix)) /\
      ((n <= nth ax ix 0 + k)%Z ->
         wall_holds t v (hstep (ggrid u) ax) (get (gdata u) (upd ax (n - 1)%Z ix)) (get (gdata r) ix)).
Proof.
  intros b u k ax mode t v Hu Hax Hc Hw Ht Hk Hmode n.
  destruct (wf_ax Hu Hax) as (Hs0 & Ho0 & Hn0 & Hus & Hh0).
  assert (Hmo : mode_ok mode k).
  { destruct Hmode as [-> | ->]; [left; discriminate | apply mode_ok_1]. }
  destruct (@pad_upper_win b u k ax mode t v 0) as (p & E & Hg & Ho & Hs & Hmid & Hgh); auto; try lia.
  assert (Hsu : shp (gdata u) = gshape (ggrid u)) by apply Hu.
  unfold gshp in *. fold n in Hs, Hmid, Hgh.
  assert (Hup : Z.of_nat (ushape p ax) = (n + k)%Z).
  { unfold ushape. rewrite Hs, nth_upd_same by auto. lia. }
  unfold bc_shift. rewrite E. cbn [bind]. rewrite (@bc_trim_lower p ax k n) by lia.
  eexists; split; [reflexivity|]. cbn [ggrid goff gdata shp axmap get]. split; [auto|].
  assert (Hoff : (offat p ax == nth ax (goff u) 0)%Q).
  { unfold offat. apply (@Forall2_nth' _ _ _ _ _ ax 0%Q 0%Q Ho). rewrite (off_eq_length Ho). auto. }
  split; [|split].
  - unfold offs. apply Forall2_intro_nth with (da := 0%Q) (db := 0%Q); [rewrite !upd_length; apply (off_eq_length Ho)|].
    rewrite upd_length. intros j Hj. rewrite (off_eq_length Ho) in Hj. destruct (Nat.eq_dec j ax) as [->|Hne].
    + rewrite !nth_upd_same by (rewrite ?(off_eq_length Ho); auto). rewrite Hoff. reflexivity.
    + rewrite !nth_upd_other by auto. apply (@Forall2_nth' _ _ _ _ _ j 0%Q 0%Q Ho). rewrite (off_eq_length Ho). auto.
  - rewrite Hs, upd_upd_same, Hsu. unfold n. rewrite Nat2Z.id. apply upd_nth_same.
  - intros ix Hix. assert (Hl : (ax < length ix)%nat) by (rewrite (inb_length _ _ Hix); exact Hax).
    pose proof (@inb_nth _ _ ax Hix Hax) as Hr. fold n in Hr.
    split; intros Hj.
    + rewrite Hmid; [reflexivity | rewrite upd_length; auto | rewrite nth_upd_same by auto; lia].
    + apply ghost_upper_holds; [exact Ht | exact Hh0|].
      rewrite Hgh; [| rewrite upd_length; auto | rewrite nth_upd_same by auto; lia].
      rewrite nth_upd_same, upd_upd_same by auto. f_equal.
      assert (Es : ghost_src mode k (0 + n) (nth ax ix 0 + k) = n - 1).
      { destruct Hmode as [-> | ->].
        - rewrite ghost_src_extend_hi by lia. lia.
        - rewrite ghost_src_one, symm_hi by lia. lia. }
      rewrite Es. apply Hmid; [rewrite upd_length; auto | rewrite nth_upd_same by auto; lia].
Qed.
(* @ex *)
Lemma wall_shift_up_ex_lem :
  exists r, bc_shift (exb BCOther Dirichlet) exu 2 1 EXTEND = Ok r /\
    get (gdata r) (ix2 1 0) = 12%R /\ ((get (gdata exu) (ix2 1 2) + get (gdata r) (ix2 1 2)) / 2 = 7)%R.
Proof.
  destruct (@wall_shift_up_lem (exb BCOther Dirichlet) exu 2 1%nat EXTEND Dirichlet 7 exu_wf exu_ax exu_centred
     (exb_upper _ _) (or_introl eq_refl) ltac:(lia) (or_introl eq_refl)) as (r & E & Hg & Ho & Hs & H).
  exists r. split; [exact E|].
  destruct (H [1; 0]) as [Ha _]; [simpl; lia|]. destruct (H [1; 2]) as [_ Hb]; [simpl; lia|].
  split; [unfold ix2; rewrite Ha; [reflexivity | simpl; lia] | apply Hb; simpl; lia].
Qed.

(* @prop C08 shift(-k) towards a lower wall, likewise. *)
Lemma wall_shift_down_lem : forall b u k ax mode t v,
  wf_garr u -> (ax < gndim (ggrid u))%nat -> centred u ax ->
  lower_wall b ax t v -> (t = Dirichlet \/ t = Neumann) ->
  (1 <= k)%Z -> (mode = EXTEND \/ k = 1%Z) ->
  exists r, bc_shift b u (- k) ax mode = Ok r /\ ggrid r = ggrid u /\
    off_eq (goff r) (offs ax (inject_Z (- k)) (goff u)) /\ shp (gdata r) = gshape (ggrid u) /\
    forall ix, inb (gshape (ggrid u)) ix ->
      ((k <= nth ax ix 0)%Z -> get (gdata r) ix = get (gdata u) (shiftix ax (- k) ix)) /\
      ((nth ax ix 0 < k)%Z ->
         wall_holds t v (hstep (ggrid u) ax) (get (gdata r) ix) (get (gdata u) (upd ax 0%Z ix))).
Proof.
  intros b u k ax mode t v Hu Hax Hc Hw Ht Hk Hmode.
  set (n := Z.of_nat (nth ax (gshape (ggrid u)) 0%nat)).
  destruct (wf_ax Hu Hax) as (Hs0 & Ho0 & Hn0 & Hus & Hh0).
  assert (Hmo : mode_ok mode k).
  { destruct Hmode as [-> | ->]; [left; discriminate | apply mode_ok_1]. }
  destruct (@pad_lower_full b u k ax mode t v) as (p & E & (Hg & Ho & Hs & Hmid) & Hgh); auto.
  assert (Hsu : shp (gdata u) = gshape (ggrid u)) by apply Hu.
  unfold gshp in *. fold n in Hs, Hmid, Hgh.
  assert (Hup : Z.of_nat (ushape p ax) = (n + k)%Z).
  { unfold ushape. rewrite Hs, nth_upd_same by exact Hax. lia. }
  unfold bc_shift. rewrite E. cbn [bind]. rewrite Z.opp_involutive, (@bc_trim_upper p ax k n) by lia.
  eexists; split; [reflexivity|]. cbn [ggrid goff gdata shp axmap get]. split; [auto|].
  assert (Hlen : length (goff p) = length (goff u)).
  { rewrite (off_eq_length Ho). unfold offs. apply upd_length. }
  split; [|split].
  - unfold offs in *. apply Forall2_intro_nth with (da := 0%Q) (db := 0%Q); [rewrite !upd_length; auto|].
    rewrite upd_length. intros j Hj.
    pose proof (@Forall2_nth' _ _ _ _ _ j 0%Q 0%Q Ho Hj) as Hoj.
    destruct (Nat.eq_dec j ax) as [->|Hne].
    + rewrite !nth_upd_same by (rewrite ?Hlen; auto). rewrite nth_upd_same in Hoj by auto.
      unfold offat. rewrite Hoj. rewrite inject_Z_opp. change (inject_Z 0) with 0%Q. ring.
    + rewrite !nth_upd_other in * by auto. auto.
  - rewrite Hs, upd_upd_same. unfold n. rewrite Nat2Z.id. apply upd_nth_same.
  - intros ix Hix. assert (Hl : (ax < length ix)%nat) by (rewrite (inb_length _ _ Hix); exact Hax).
    pose proof (@inb_nth _ _ ax Hix Hax) as Hr. fold n in Hr.
    assert (Hin : forall j, 0 <= j < n + k -> inb (shp (gdata p)) (upd ax j ix)).
    { intros j Hj. rewrite Hs. apply inb_upd; auto. lia. }
    rewrite Z.add_0_r, upd_nth_same.
    split; intros Hj.
    + rewrite Hmid; [| rewrite <- (upd_nth_same ax 0 ix); apply Hin; lia | lia].
      reflexivity.
    + apply ghost_lower_holds; [exact Ht | exact Hh0|].
      rewrite Hgh; [| rewrite <- (upd_nth_same ax 0 ix); apply Hin; lia | lia]. f_equal.
      assert (Es : ghost_src mode k n (nth ax ix 0 - k) = 0).
      { destruct Hmode as [-> | ->].
        - apply ghost_src_extend_lo; lia.
        - rewrite ghost_src_one, symm_lo by lia. lia. }
      rewrite Es, Z.add_0_r. rewrite Hmid.
      * rewrite nth_upd_same, upd_upd_same, Z.sub_diag by auto. reflexivity.
      * apply Hin; lia.
      * rewrite nth_upd_same by auto. lia.
Qed.
(* @ex *)
Lemma wall_shift_down_ex_lem :
  exists r, bc_shift (exb Neumann BCOther) exu (-2) 1 EXTEND = Ok r /\
    get (gdata r) (ix2 1 2) = 10%R /\ ((get (gdata exu) (ix2 1 0) - get (gdata r) (ix2 1 1)) / (1/2) = 5)%R.
Proof.
  destruct (@wall_shift_down_lem (exb Neumann BCOther) exu 2 1%nat EXTEND Neumann 5 exu_wf exu_ax exu_centred
     (exb_lower _ _) (or_intror eq_refl) ltac:(lia) (or_introl eq_refl)) as (r & E & Hg & Ho & Hs & H).
  exists r. split; [exact E|].
  destruct (H [1; 2]) as [Ha _]; [simpl; lia|]. destruct (H [1; 1]) as [_ Hb]; [simpl; lia|].
  split; [unfold ix2; rewrite Ha; [reflexivity | simpl; lia] | apply Hb; simpl; lia].
Qed.

(* @prop C10 Edge-aligned data with a lower Neumann condition: pad and impose_bc raise; shift towards a Neumann side raises. *)
Lemma neumann_edge_raises_lem : forall b u ax mode z,
  wf_garr u -> (ax < gndim (ggrid u))%nat -> (nth ax (goff u) 0 == inject_Z z)%Q ->
  (forall v w, lower_wall b ax Neumann v ->
     (exists e, bc_pad b u w ax mode = Err e) /\
     (forall k, (1 <= k)%Z -> exists e, bc_shift b u (- k) ax mode = Err e)) /\
  (forall v, upper_wall b ax Neumann v ->
     forall k, (1 <= k)%Z -> exists e, bc_shift b u k ax mode = Err e).
Proof.
  intros b u ax mode z Hu Hax Hz.
  destruct (wf_ax Hu Hax) as (Hs0 & Ho0 & Hn0 & Hus & Hh0).
  assert (Hneu : forall u' pads w, (offat u' ax == inject_Z z)%Q \/ (exists y, offat u' ax == inject_Z y)%Q -> pad_neumann b u' ax pads w mode = Err EValue).
  { intros u' pads w H. unfold pad_neumann.
    assert (Hy : exists y, (offat u' ax == inject_Z y)%Q) by (destruct H as [H|H]; eauto). destruct Hy as [y Hy].
    rewrite (int_not_half Hy). reflexivity. }
  assert (Htrim : forall s u' p, trim_padding b u ax s = Ok (u', p) -> exists y, (offat u' ax == inject_Z y)%Q).
  { assert (Hbt : forall u0 w u', (exists y, offat u0 ax == inject_Z y)%Q -> (ax < length (goff u0))%nat ->
        bc_trim u0 w ax = Ok u' -> (exists y, offat u' ax == inject_Z y)%Q /\ (ax < length (goff u'))%nat).
    { intros u0 w u' [y Hy] Hl. unfold bc_trim. intros HB. apply bind_Ok_inv in HB. destruct HB as (d & _ & HE).
      injection HE as <-. unfold offat at 1. cbn [goff]. rewrite nth_upd_same, upd_length by auto.
      split; auto. eexists. rewrite Hy, <- inject_Z_plus. reflexivity. }
    intros s u' p H. unfold trim_padding in H.
    destruct (_ <=? _)%nat; [|injection H as <- <-; exists z; exact Hz].
    apply bind_Ok_inv in H. destruct H as ([u1 nt] & H1 & H2).
    assert (Hu1 : (exists y, offat u1 ax == inject_Z y)%Q /\ (ax < length (goff u1))%nat).
    { destruct (_ && _).
      - apply bind_Ok_inv in H1. destruct H1 as (u2 & H3 & H4). injection H4 as <- <-.
        eapply Hbt; [exists z; exact Hz | auto | exact H3].
      - injection H1 as <- <-. split; [exists z; exact Hz | auto]. }
    apply bind_Ok_inv in H2. destruct H2 as (u3 & H5 & H6). injection H6 as <- _.
    destruct (0 <? _)%Z.
    - eapply Hbt; [apply Hu1 | apply Hu1 | exact H5].
    - injection H5 as <-. apply Hu1. }
  split.
  - intros v w Hw. destruct (lower_wall_bt Hw) as [Hb Hv]. split.
    + exists ENotImpl. unfold bc_pad, is_aligned. rewrite Hb. fold (offat u ax) in Hz. change (isNeu Neumann) with true.
      rewrite (int_isclose Hz). reflexivity.
    + intros k Hk. unfold bc_shift, bc_pad_.
      replace (ax <? gndim (ggrid u))%nat with true by (symmetry; apply Nat.ltb_lt; auto). cbn [negb].
      replace (- k <? 0)%Z with true by (symmetry; apply Z.ltb_lt; lia).
      rewrite Hb. cbn [fst snd isPer bctype_eqb].
      destruct (trim_padding _ _ _ _) as [[u' p]|e] eqn:E; [|eexists; reflexivity].
      cbn [bind]. rewrite Hneu by (right; eauto). eexists; reflexivity.
  - intros v Hw k Hk. destruct (upper_wall_bt Hw) as [Hb Hv].
    unfold bc_shift, bc_pad_.
    replace (ax <? gndim (ggrid u))%nat with true by (symmetry; apply Nat.ltb_lt; auto). cbn [negb].
    replace (k <? 0)%Z with false by (symmetry; apply Z.ltb_ge; lia).
    rewrite Hb. cbn [fst snd isPer bctype_eqb].
    destruct (trim_padding _ _ _ _) as [[u' p]|e] eqn:E; [|eexists; reflexivity].
    cbn [bind]. rewrite Hneu by (right; eauto). eexists; reflexivity.
Qed.
(* @ex *)
Lemma neumann_edge_raises_ex_lem :
  let u := mkga (gdata exu) [(1 # 2)%Q; 1%Q] exg in
  wf_garr u /\ (1 < gndim (ggrid u))%nat /\ (nth 1 (goff u) 0 == inject_Z 1)%Q /\
  lower_wall (exb Neumann Neumann) 1 Neumann 5 /\ upper_wall (exb Neumann Neumann) 1 Neumann 7.
Proof.
  repeat apply conj; try reflexivity; try apply exb_lower; try apply exb_upper.
  all: repeat constructor; try lra; try lia.
Qed.
