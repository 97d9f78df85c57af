(** * Property C09: impose_bc *)
From Verif Require Import Prelude NdArr Grids_model Spec Boundaries_model BoundariesPeriodic WallBC PRep PeriodicBCProps WallBCProps.
From Coq Require Lqa.
Set Implicit Arguments.
Local Open Scope Z_scope.

Lemma edge_side_inv b o a s v : edge_side b o a = Some (s, v) ->
  btype b a = (Dirichlet, Dirichlet) /\
  (exists lo hi, bval b a = (Some lo, Some hi) /\ v = if s then hi else lo) /\
  (nth a o 0 == if s then 1 else 0)%Q.
Proof.
  unfold edge_side, btype, bval.
  destruct (nth_error (btypes b) a) as [[[] []]|] eqn:E1; try discriminate.
  destruct (nth_error (bvals b) a) as [[[lo|] [hi|]]|] eqn:E2; try discriminate.
  rewrite (nth_error_nth _ _ _ E1), (nth_error_nth _ _ _ E2).
  destruct (Qeq_bool (nth a o 0) 1)%Q eqn:Q1.
  - intros H; injection H as <- <-. apply Qeq_bool_iff in Q1. repeat split; auto. eauto.
  - destruct (Qeq_bool (nth a o 0) 0)%Q eqn:Q0; [|discriminate].
    intros H; injection H as <- <-. apply Qeq_bool_iff in Q0. repeat split; auto. eauto.
Qed.

(** Trimming both sides of a full axis. *)
Lemma trim_both_free b u a : periodic_axis b a \/ (offat u a == 1 # 2)%Q ->
  (a < length (shp (gdata u)))%nat -> (a < length (goff u))%nat -> ushape u a = gshp u a ->
  exists w, trim_padding b u a Both = Ok (w, (0, 0)) /\ ggrid w = ggrid u /\ off_eq (goff w) (goff u) /\
    shp (gdata w) = shp (gdata u) /\
    forall ix, (a < length ix)%nat -> get (gdata w) ix = get (gdata u) ix.
Proof.
  intros Hk Ha Hol Hs. unfold trim_padding. rewrite Hs, Nat.leb_refl.
  assert (Hrefl : off_eq (goff u) (goff u)) by (apply off_eq_refl).
  destruct Hk as [Hp|Hc].
  - apply periodic_axis_btype in Hp.
    destruct (Qle_bool (offat u a) 0) eqn:E; cbn [andb]; cbv zeta.
    + assert (En : neg_trim b u a = 0).
      { unfold neg_trim. rewrite Hp. cbn [fst isPer bctype_eqb]. rewrite Hs, Z.sub_diag.
        assert (0 <= Qceiling (- offat u a)).
        { apply nonneg_ceiling. apply Qle_bool_iff in E. rewrite <- (Qopp_opp 0). apply Qopp_le_compat. exact E. }
        lia. }
      rewrite En. rewrite bc_trim_spec by lia. cbn [bind].
      set (w := mkga _ _ _).
      assert (Ep : pos_trim b w a = 0).
      { unfold pos_trim. rewrite Hp. cbn [snd isPer bctype_eqb].
        assert (Hus : ushape w a = gshp u a).
        { unfold ushape, w. cbn [gdata shp axmap]. rewrite nth_upd_same by auto. lia. }
        rewrite Hus. change (gshp w a) with (gshp u a). lia. }
      rewrite Ep. cbn [Z.ltb Z.compare bind Z.opp]. unfold w.
      eexists; split; [reflexivity|]. cbn [ggrid goff gdata shp axmap get]. split; [reflexivity|]. split.
      * rewrite <- (upd_nth_same a 0%Q (goff u)) at 2. apply off_upd_eq. unfold offat.
        change (Z.max 0 (- 0)) with 0. change (inject_Z 0) with 0%Q. ring.
      * change (Z.abs 0) with 0. rewrite Z.sub_0_r, Nat2Z.id. unfold ushape. rewrite upd_nth_same.
        split; [reflexivity|]. intros ix Hix. change (Z.max 0 (- 0)) with 0. rewrite Z.add_0_r, upd_nth_same. reflexivity.
    + cbn [bind]. unfold pos_trim. rewrite Hp. cbn [snd isPer bctype_eqb]. rewrite Hs, Z.sub_diag.
      cbn [Z.max Z.ltb Z.compare bind]. exists u. auto.
  - assert (Ho : (offat u a == (1 # 2) - inject_Z 0)%Q) by (rewrite Hc; reflexivity).
    assert (E : Qle_bool (offat u a) 0 = false) by (rewrite (Qleb_comp _ _ Hc _ 0%Q (Qeq_refl 0)); reflexivity).
    rewrite E. cbn [andb bind]. cbv zeta.
    assert (Ep : pos_trim b u a = 0).
    { unfold pos_trim. destruct (isPer _); [rewrite Hs; lia|].
      match goal with |- (if ?c then _ else _) = _ => destruct c eqn:E2 end; [|reflexivity]. exfalso.
      apply Qle_bool_iff in E2. rewrite Hc, Hs in E2. Lqa.lra. }
    rewrite Ep. cbn [Z.ltb Z.compare bind]. exists u. auto.
Qed.

Lemma trim_both_top b u a lo hi : btype b a = (Dirichlet, Dirichlet) -> bval b a = (Some lo, Some hi) ->
  (offat u a == 1)%Q ->
  (a < length (shp (gdata u)))%nat -> (a < length (goff u))%nat -> ushape u a = gshp u a -> (0 < gshp u a)%nat ->
  exists w, trim_padding b u a Both = Ok (w, (0, 1)) /\ ggrid w = ggrid u /\ off_eq (goff w) (goff u) /\
    shp (gdata w) = upd a (gshp u a - 1)%nat (shp (gdata u)) /\
    forall ix, (a < length ix)%nat -> get (gdata w) ix = get (gdata u) ix.
Proof.
  intros Hb Hv Ho Ha Hol Hs Hn. unfold trim_padding. rewrite Hs, Nat.leb_refl.
  assert (E : Qle_bool (offat u a) 0 = false) by (rewrite (Qleb_comp _ _ Ho _ 0%Q (Qeq_refl 0)); reflexivity).
  rewrite E. cbn [andb bind]. cbv zeta.
  assert (Ep : pos_trim b u a = 1).
  { unfold pos_trim. rewrite Hb. cbn [snd isPer isDir bctype_eqb].
    assert (E2 : Qle_bool (inject_Z (Z.of_nat (gshp u a))) (inject_Z (Z.of_nat (ushape u a)) + offat u a - 1) = true).
    { apply Qle_bool_iff. rewrite Ho, Hs. Lqa.lra. }
    rewrite E2. rewrite (int_isclose (z := 1)) by (rewrite Ho; reflexivity). cbn [andb].
    rewrite (@Qceiling_comp _ 0%Q); [reflexivity|]. rewrite Ho, Hs. ring. }
  rewrite Ep. cbn [Z.ltb Z.compare]. rewrite bc_trim_spec by lia. cbn [bind].
  eexists; split; [reflexivity|]. cbn [ggrid goff gdata shp axmap get]. split; [reflexivity|]. split.
  - rewrite <- (upd_nth_same a 0%Q (goff u)) at 2. apply off_upd_eq. unfold offat.
    transitivity (nth a (goff u) 0 + 0)%Q; [reflexivity | ring].
  - rewrite Hs. split; [f_equal; lia|]. intros ix Hix. change (Z.max 0 (- 1)) with 0.
    rewrite Z.add_0_r, upd_nth_same. reflexivity.
Qed.

Lemma trim_both_bot b u a lo hi : btype b a = (Dirichlet, Dirichlet) -> bval b a = (Some lo, Some hi) ->
  (offat u a == 0)%Q ->
  (a < length (shp (gdata u)))%nat -> (a < length (goff u))%nat -> ushape u a = gshp u a -> (0 < gshp u a)%nat ->
  exists w, trim_padding b u a Both = Ok (w, (1, 0)) /\ ggrid w = ggrid u /\ off_eq (goff w) (upd a 1%Q (goff u)) /\
    shp (gdata w) = upd a (gshp u a - 1)%nat (shp (gdata u)) /\
    forall ix, (a < length ix)%nat -> get (gdata w) ix = get (gdata u) (shiftix a 1 ix).
Proof.
  intros Hb Hv Ho Ha Hol Hs Hn. unfold trim_padding. rewrite Hs, Nat.leb_refl.
  assert (E : Qle_bool (offat u a) 0 = true) by (rewrite (Qleb_comp _ _ Ho _ 0%Q (Qeq_refl 0)); reflexivity).
  rewrite E. cbn [andb]. cbv zeta.
  assert (En : neg_trim b u a = -1).
  { unfold neg_trim. rewrite Hb. cbn [fst isPer bctype_eqb].
    rewrite (int_isclose (z := 0)) by (rewrite Ho; reflexivity).
    rewrite (@Qceiling_comp _ 0%Q); [reflexivity|]. rewrite Ho. reflexivity. }
  rewrite En. rewrite bc_trim_spec by lia. cbn [bind].
  set (w := mkga _ _ _).
  assert (Ep : pos_trim b w a = 0).
  { unfold pos_trim. rewrite Hb. cbn [snd isPer isDir bctype_eqb].
    match goal with |- (if ?c then _ else _) = _ => destruct c eqn:E2 end; [|reflexivity]. exfalso. apply Qle_bool_iff in E2.
    assert (Ew : ushape w a = (gshp u a - 1)%nat).
    { unfold ushape, w. cbn [gdata shp axmap]. rewrite nth_upd_same by auto. lia. }
    assert (Eo : (offat w a == 1)%Q).
    { unfold offat, w. cbn [goff]. rewrite nth_upd_same by auto. rewrite Ho. reflexivity. }
    rewrite Ew, Eo in E2. change (gshp w a) with (gshp u a) in E2.
    rewrite Nat2Z.inj_sub in E2 by lia. unfold Z.sub in E2. rewrite inject_Z_plus in E2.
    change (inject_Z (- Z.of_nat 1)) with (- (1))%Q in E2. Lqa.lra. }
  rewrite Ep. cbn [Z.ltb Z.compare bind Z.opp].
  eexists; split; [reflexivity|]. unfold w. cbn [ggrid goff gdata shp axmap get]. split; [reflexivity|]. split.
  - apply off_upd_eq. rewrite Ho. reflexivity.
  - rewrite Hs. split; [f_equal; lia|]. intros ix Hix. change (Z.max 0 (- -1)) with 1. reflexivity.
Qed.

Section Impose.
Variable b : bcs.
Variable u : garr.
Hypothesis Hu : wf_garr u.
Hypothesis Hreg : forall a, (a < gndim (ggrid u))%nat -> regular_axis b u a.
Let d := gndim (ggrid u).
Let es := edge_side b (goff u).
Let N a := nth a (gshape (ggrid u)) 0%nat.

Definition isbot (e : option (bool * R)) : bool := match e with Some (false, _) => true | _ => false end.
Definition isedge (e : option (bool * R)) : bool := match e with Some _ => true | None => false end.
Let lift (P : nat -> bool) (ix : list Z) : list Z :=
  map (fun a => if P a && isbot (es a) then nth a ix 0 + 1 else nth a ix 0) (seq 0 d).

Lemma lift_length P ix : length (lift P ix) = d.
Proof. unfold lift. rewrite map_length, seq_length. reflexivity. Qed.
Lemma lift_nth P ix a : (a < d)%nat -> nth a (lift P ix) 0 = if P a && isbot (es a) then nth a ix 0 + 1 else nth a ix 0.
Proof. intros Ha. unfold lift. rewrite nth_map_seq by auto. reflexivity. Qed.
Lemma lift_id P ix : length ix = d -> (forall a, (a < d)%nat -> P a && isbot (es a) = false) -> lift P ix = ix.
Proof.
  intros HL H. apply (list_ext_nth 0); [rewrite lift_length; auto|]. rewrite lift_length. intros a Ha.
  rewrite lift_nth by auto. rewrite H by auto. reflexivity.
Qed.
Lemma lift_ext P Q ix : (forall a, (a < d)%nat -> P a && isbot (es a) = Q a && isbot (es a)) -> lift P ix = lift Q ix.
Proof.
  intros H. apply (list_ext_nth 0); [rewrite !lift_length; auto|]. rewrite lift_length. intros a Ha.
  rewrite !lift_nth by auto. rewrite H by auto. reflexivity.
Qed.

(** State of the array with the axes in [T] still trimmed. *)
Definition trimmed (T : nat -> bool) (w : garr) : Prop :=
  ggrid w = ggrid u /\ length (goff w) = d /\
  (forall a, (a < d)%nat -> (offat w a == if T a && isbot (es a) then 1 else offat u a)%Q) /\
  length (shp (gdata w)) = d /\
  (forall a, (a < d)%nat -> ushape w a = if T a && isedge (es a) then (N a - 1)%nat else N a).

Definition below (k a : nat) : bool := (a <? k)%nat.
Definition above (k a : nat) : bool := (k <=? a)%nat.

Lemma Npos a : (a < d)%nat -> (0 < N a)%nat.
Proof. intros Ha. apply allpos_nth; [apply Hu | exact Ha]. Qed.
Lemma trimmed_gshp T w a : trimmed T w -> gshp w a = N a.
Proof. intros (Hg & _). unfold gshp. rewrite Hg. reflexivity. Qed.

Lemma aligned_step T w a : trimmed T w -> (a < d)%nat -> is_aligned b w a = Ok tt.
Proof.
  intros HT Ha. pose proof (Npos Ha) as HN. destruct HT as (Hg & HL & Ho & HLs & Hs).
  unfold is_aligned. specialize (Ho a Ha). specialize (Hs a Ha).
  assert (Egs : gshp w a = N a) by (unfold gshp; rewrite Hg; reflexivity). rewrite Egs.
  destruct (es a) as [[s v]|] eqn:E.
  - destruct (edge_side_inv _ _ _ E) as (Hb & _ & Hoff). rewrite Hb. cbn [fst snd isNeu isDir bctype_eqb andb].
    replace (_ <? 0) with false; [reflexivity|]. symmetry. apply Z.ltb_ge. rewrite Hs.
    destruct (T a); cbn [isedge andb]; [|destruct (isclose (offat w a) 1); lia].
    assert (E1 : isclose (offat w a) 1 = true).
    { destruct s; cbn [isbot andb] in Ho; rewrite Ho; [unfold offat; rewrite Hoff|]; reflexivity. }
    rewrite E1. lia.
  - cbn [isbot isedge] in *. rewrite andb_false_r in Ho, Hs. rewrite Hs, Z.sub_diag.
    destruct (Hreg Ha) as [Hp|[Hc|He]]; [| |exfalso; apply He; exact E].
    + rewrite (periodic_axis_btype Hp). reflexivity.
    + assert (Ho2 : (offat w a == (1 # 2) - inject_Z 0)%Q) by (rewrite Ho; exact Hc).
      rewrite (half_not_int Ho2), (half_not_one Ho2) by lia. rewrite !andb_false_r. reflexivity.
Qed.

Lemma trim_step k w : (k < d)%nat -> trimmed (below k) w ->
  (forall ix, length ix = d -> get (gdata w) ix = get (gdata u) (lift (below k) ix)) ->
  exists w' p, trim_padding b w k Both = Ok (w', p) /\ trimmed (below (S k)) w' /\
    forall ix, length ix = d -> get (gdata w') ix = get (gdata u) (lift (below (S k)) ix).
Proof.
  intros Hk HT Hget. pose proof (Npos Hk) as HN. pose proof (trimmed_gshp k HT) as Hgs.
  pose proof HT as (Hg & HL & Ho & HLs & Hs).
  assert (Hbk : below k k = false) by (apply Nat.ltb_ge; lia).
  assert (Hbsk : below (S k) k = true) by (apply Nat.ltb_lt; lia).
  assert (Hbo : forall a, a <> k -> below (S k) a = below k a).
  { intros a Hne. unfold below. destruct (Nat.ltb_spec a k); destruct (Nat.ltb_spec a (S k)); auto; lia. }
  assert (Hou := Ho k Hk). assert (Hsu := Hs k Hk). rewrite Hbk in Hou, Hsu. cbn [andb] in Hou, Hsu.
  assert (Hal : (k < length (shp (gdata w)))%nat) by lia.
  assert (Hal2 : (k < length (goff w))%nat) by lia.
  assert (Hus : ushape w k = gshp w k) by congruence.
  destruct (es k) as [[[] v]|] eqn:E.
  - destruct (edge_side_inv _ _ _ E) as (Hb & (lo & hi & Hbv & _) & Hoff).
    destruct (@trim_both_top b w k lo hi) as (w' & Et & Hg' & Ho' & Hs' & Hget'); auto; try lia.
    { rewrite Hou. exact Hoff. }
    exists w', (0, 1). split; [exact Et|]. split.
    + split; [congruence|]. split; [rewrite (off_eq_length Ho'); auto|]. split; [|split].
      * intros a Ha. unfold offat. rewrite (@Forall2_nth' _ _ _ _ _ a 0%Q 0%Q Ho') by (rewrite (off_eq_length Ho'); lia).
        fold (offat w a). rewrite (Ho a Ha).
        destruct (Nat.eq_dec a k) as [->|Hne]; [|rewrite Hbo by auto; reflexivity].
        rewrite E. cbn [isbot]. rewrite !andb_false_r. reflexivity.
      * rewrite Hs', upd_length. auto.
      * intros a Ha. unfold ushape. rewrite Hs'. destruct (Nat.eq_dec a k) as [->|Hne].
        -- rewrite nth_upd_same by auto. rewrite Hbsk, E. cbn [isedge andb]. rewrite Hgs. reflexivity.
        -- rewrite nth_upd_other by auto. rewrite Hbo by auto. apply (Hs a Ha).
    + intros ix Hix. rewrite Hget' by lia. rewrite Hget by auto. f_equal. apply lift_ext. intros a Ha.
      destruct (Nat.eq_dec a k) as [->|Hne]; [|rewrite Hbo by auto; reflexivity].
      rewrite E. cbn [isbot]. rewrite !andb_false_r. reflexivity.
  - destruct (edge_side_inv _ _ _ E) as (Hb & (lo & hi & Hbv & _) & Hoff).
    destruct (@trim_both_bot b w k lo hi) as (w' & Et & Hg' & Ho' & Hs' & Hget'); auto; try lia.
    { rewrite Hou. exact Hoff. }
    exists w', (1, 0). split; [exact Et|]. split.
    + assert (HLo : length (goff w') = d) by (rewrite (off_eq_length Ho'), upd_length; auto).
      split; [congruence|]. split; [auto|]. split; [|split].
      * intros a Ha. unfold offat. rewrite (@Forall2_nth' _ _ _ _ _ a 0%Q 0%Q Ho') by lia.
        destruct (Nat.eq_dec a k) as [->|Hne].
        -- rewrite nth_upd_same by auto. rewrite Hbsk, E. reflexivity.
        -- rewrite nth_upd_other by auto. fold (offat w a). rewrite (Ho a Ha). rewrite Hbo by auto. reflexivity.
      * rewrite Hs', upd_length. auto.
      * intros a Ha. unfold ushape. rewrite Hs'. destruct (Nat.eq_dec a k) as [->|Hne].
        -- rewrite nth_upd_same by auto. rewrite Hbsk, E. cbn [isedge andb]. rewrite Hgs. reflexivity.
        -- rewrite nth_upd_other by auto. rewrite Hbo by auto. apply (Hs a Ha).
    + intros ix Hix. rewrite Hget' by lia. rewrite Hget by (rewrite shiftix_length; auto). f_equal.
      apply (list_ext_nth 0); [rewrite !lift_length; auto|]. rewrite lift_length. intros a Ha.
      rewrite !lift_nth by auto. unfold shiftix. destruct (Nat.eq_dec a k) as [->|Hne].
      * rewrite nth_upd_same by lia. rewrite Hbk, Hbsk, E. cbn [isbot andb]. reflexivity.
      * rewrite nth_upd_other by auto. rewrite Hbo by auto. reflexivity.
  - assert (Hfree : periodic_axis b k \/ (offat w k == 1 # 2)%Q).
    { destruct (Hreg Hk) as [Hp|[Hc|He]]; [left; exact Hp | right | exfalso; apply He; exact E].
      rewrite Hou. exact Hc. }
    destruct (@trim_both_free b w k Hfree) as (w' & Et & Hg' & Ho' & Hs' & Hget'); auto.
    exists w', (0, 0). split; [exact Et|]. split.
    + split; [congruence|]. split; [rewrite (off_eq_length Ho'); auto|]. split; [|split].
      * intros a Ha. unfold offat. rewrite (@Forall2_nth' _ _ _ _ _ a 0%Q 0%Q Ho') by (rewrite (off_eq_length Ho'); lia).
        fold (offat w a). rewrite (Ho a Ha).
        destruct (Nat.eq_dec a k) as [->|Hne]; [|rewrite Hbo by auto; reflexivity].
        rewrite E. cbn [isbot]. rewrite !andb_false_r. reflexivity.
      * rewrite Hs'. auto.
      * intros a Ha. unfold ushape. rewrite Hs'. fold (ushape w a). rewrite (Hs a Ha).
        destruct (Nat.eq_dec a k) as [->|Hne]; [|rewrite Hbo by auto; reflexivity].
        rewrite E. cbn [isedge]. rewrite !andb_false_r. reflexivity.
    + intros ix Hix. rewrite Hget' by lia. rewrite Hget by auto. f_equal. apply lift_ext. intros a Ha.
      destruct (Nat.eq_dec a k) as [->|Hne]; [|rewrite Hbo by auto; reflexivity].
      rewrite E. cbn [isbot]. rewrite !andb_false_r. reflexivity.
Qed.

Lemma trim_steps k m w : (k + m = d)%nat -> trimmed (below k) w ->
  (forall ix, length ix = d -> get (gdata w) ix = get (gdata u) (lift (below k) ix)) ->
  exists w', foldM (fun u ax => let* _ := is_aligned b u ax in
                     let* up := trim_padding b u ax Both in Ok (fst up)) w (seq k m) = Ok w' /\
    trimmed (below d) w' /\
    forall ix, length ix = d -> get (gdata w') ix = get (gdata u) (lift (below d) ix).
Proof.
  revert k w; induction m as [|m IH]; intros k w Hkm HT Hget.
  - exists w. assert (k = d) as <- by lia. split; [reflexivity|]. auto.
  - cbn [seq foldM].
    destruct (@trim_step k w) as (w' & p & Et & HT' & Hget'); auto; [lia|].
    rewrite (aligned_step HT) by lia. cbn [bind]. rewrite Et. cbn [bind fst].
    apply IH; auto. lia.
Qed.

Lemma trim_boundary_regular : exists w, trim_boundary b u = Ok w /\ trimmed (below d) w /\
    forall ix, length ix = d -> get (gdata w) ix = get (gdata u) (lift (below d) ix).
Proof.
  destruct Hu as (Hg & Hs & Ho).
  apply (@trim_steps 0%nat d u); [lia | | ].
  - split; [auto|]. split; [exact Ho|]. split; [intros; reflexivity|]. split; [rewrite Hs; reflexivity|].
    intros a Ha. unfold ushape. rewrite Hs. reflexivity.
  - intros ix Hix. rewrite lift_id; auto.
Qed.

(** Padding stage *)
Fixpoint overr (k : nat) (ix : list Z) (base : R) : R :=
  match k with
  | O => base
  | S k' => match wall_value b u k' ix with Some v => v | None => overr k' ix base end
  end.

Lemma overr_upd k j i ix base : (k <= j)%nat -> overr k (upd j i ix) base = overr k ix base.
Proof.
  revert base; induction k as [|k IH]; intros base Hj; [reflexivity|]. simpl.
  rewrite IH by lia. unfold wall_value. rewrite nth_upd_other by lia. reflexivity.
Qed.

Lemma pad_step k w : (k < d)%nat -> trimmed (above k) w ->
  (forall ix, inb (shp (gdata w)) ix -> get (gdata w) ix = overr k ix (get (gdata u) (lift (above k) ix))) ->
  exists w', (if isDir (fst (btype b k)) && isclose (offat w k) 1 then
                       if isclose (nth k (goff u) 0%Q) 1 then bc_pad_ b w 1 k EXTEND
                       else if isclose (nth k (goff u) 0%Q) 0 then bc_pad_ b w (-1) k EXTEND
                       else Ok w
                     else Ok w) = Ok w' /\
    trimmed (above (S k)) w' /\
    forall ix, inb (shp (gdata w')) ix -> get (gdata w') ix = overr (S k) ix (get (gdata u) (lift (above (S k)) ix)).
Proof.
  intros Hk HT Hget. pose proof (Npos Hk) as HN. pose proof (trimmed_gshp k HT) as Hgs.
  pose proof HT as (Hg & HL & Ho & HLs & Hs).
  assert (Hbk : above k k = true) by (apply Nat.leb_le; lia).
  assert (Hbsk : above (S k) k = false) by (apply Nat.leb_gt; lia).
  assert (Hbo : forall a, a <> k -> above (S k) a = above k a).
  { intros a Hne. unfold above. destruct (Nat.leb_spec k a); destruct (Nat.leb_spec (S k) a); auto; lia. }
  assert (Hou := Ho k Hk). assert (Hsu := Hs k Hk). rewrite Hbk in Hou, Hsu. cbn [andb] in Hou, Hsu.
  assert (Hal : (k < length (shp (gdata w)))%nat) by lia.
  assert (Hal2 : (k < length (goff w))%nat) by lia.
  assert (Hdg : (k <? gndim (ggrid w))%nat = true) by (apply Nat.ltb_lt; rewrite Hg; exact Hk).
  destruct (es k) as [[s v]|] eqn:E.
  - destruct (edge_side_inv _ _ _ E) as (Hb & (lo & hi & Hbv & Hvv) & Hoff).
    cbn [isedge] in Hsu.
    assert (E1 : isclose (offat w k) 1 = true).
    { destruct s; cbn [isbot] in Hou; rewrite Hou; [unfold offat; rewrite Hoff|]; reflexivity. }
    rewrite Hb, E1. cbn [fst isDir bctype_eqb andb].
    assert (Hom : (offat w k == inject_Z 1)%Q).
    { rewrite Hou. destruct s; cbn [isbot]; [exact Hoff | reflexivity]. }
    assert (Htp : forall sd, trim_padding b w k sd = Ok (w, (0, 0))).
    { intros sd. unfold trim_padding. rewrite Hgs, Hsu.
      replace (N k <=? N k - 1)%nat with false by (symmetry; apply Nat.leb_gt; lia). reflexivity. }
    assert (Hnp : forall l h c1 c2, 0 <= l -> 0 <= h -> np_pad (gdata w) k (l, h) (NpConstant c1 c2) =
       Ok (axmap k (Z.to_nat (l + Z.of_nat (N k - 1) + h)) (pad1 (NpConstant c1 c2) (N k - 1) l) (gdata w))).
    { intros l h c1 c2 Hl Hh. unfold np_pad. replace (nth k (shp (gdata w)) 0%nat) with (N k - 1)%nat.
      replace (l <? 0) with false by (symmetry; apply Z.ltb_ge; lia).
      replace (h <? 0) with false by (symmetry; apply Z.ltb_ge; lia). reflexivity. }
    destruct s.
    + rewrite (isclose_proper Hoff (Qeq_refl 1)). change (isclose 1 1) with true. cbv iota.
      unfold bc_pad_. rewrite Hdg. cbn [negb]. change (1 <? 0) with false. cbv iota.
      rewrite Hb. cbn [fst snd isPer bctype_eqb]. change (0 <=? 1) with true. cbv iota.
      rewrite Htp. cbn [bind fst snd]. change (0 + 0) with 0. change (1 + 0) with 1.
      unfold pad_dirichlet. rewrite (int_not_half Hom), (int_isclose Hom). cbn [fst snd].
      change ((0 + 1 =? 1) || (0 + 1 =? 0)) with true. cbv iota.
      rewrite Hbv. rewrite const_mode_Ok by (right; eexists; reflexivity). cbn [bind opt0 fst snd].
      rewrite (@Hnp 0 1 lo hi) by lia. cbn [bind fst snd].
      eexists; split; [reflexivity|].
      split.
      * split; [exact Hg|]. cbn [goff ggrid gdata shp axmap]. rewrite !upd_length. split; [exact HL|].
        split; [|split; [exact HLs|]].
        -- intros a Ha. unfold offat at 1. cbn [goff]. destruct (Nat.eq_dec a k) as [->|Hne].
           ++ rewrite nth_upd_same by auto. rewrite E. cbn [isbot]. rewrite andb_false_r. rewrite Hou. cbn [isbot].
              change (inject_Z 0) with 0%Q. ring.
           ++ rewrite nth_upd_other by auto. fold (offat w a). rewrite (Ho a Ha), Hbo by auto. reflexivity.
        -- intros a Ha. unfold ushape at 1. cbn [gdata shp axmap]. destruct (Nat.eq_dec a k) as [->|Hne].
           ++ rewrite nth_upd_same by auto. rewrite Hbsk. cbn [andb]. lia.
           ++ rewrite nth_upd_other by auto. rewrite Hbo by auto. apply (Hs a Ha).
      * cbn [gdata shp axmap get]. intros ix Hix.
        pose proof (inb_length _ _ Hix) as HLix. rewrite upd_length in HLix.
        pose proof (@inb_nth _ _ k Hix) as Hr. rewrite upd_length in Hr. specialize (Hr Hal).
        rewrite nth_upd_same in Hr by auto.
        cbn [overr]. unfold wall_value at 1. fold (es k). rewrite E. fold (N k).
        destruct (Z.eqb_spec (nth k ix 0) (Z.of_nat (N k) - 1)) as [He|Hne].
        -- rewrite pad1_out by lia. replace (_ <? 0) with false by (symmetry; apply Z.ltb_ge; lia). symmetry; exact Hvv.
        -- rewrite pad1_in by lia. rewrite Z.sub_0_r, upd_nth_same.
           rewrite Hget.
           ++ f_equal. f_equal. apply lift_ext. intros a Ha. destruct (Nat.eq_dec a k) as [->|Hna]; [|rewrite Hbo by auto; reflexivity].
              rewrite E. cbn [isbot]. rewrite !andb_false_r. reflexivity.
           ++ rewrite <- (upd_nth_same k 0 ix). eapply inb_upd_inv; [exact Hix | auto |].
              fold (ushape w k). rewrite Hsu. lia.
    + rewrite (isclose_proper Hoff (Qeq_refl 1)). change (isclose 0 1) with false. cbv iota.
      rewrite (isclose_proper Hoff (Qeq_refl 0)). change (isclose 0 0) with true. cbv iota.
      unfold bc_pad_. rewrite Hdg. cbn [negb]. change (-1 <? 0) with true. cbv iota.
      rewrite Hb. cbn [fst snd isPer bctype_eqb]. change (0 <=? -1) with false. cbv iota.
      rewrite Htp. cbn [bind fst snd]. change (0 + 0) with 0. change (- -1 + 0) with 1.
      unfold pad_dirichlet. rewrite (int_not_half Hom), (int_isclose Hom). cbn [fst snd].
      change ((1 + 0 =? 1) || (1 + 0 =? 0)) with true. cbv iota.
      rewrite Hbv. rewrite const_mode_Ok by (right; eexists; reflexivity). cbn [bind opt0 fst snd].
      rewrite (@Hnp 1 0 lo hi) by lia. cbn [bind fst snd].
      eexists; split; [reflexivity|].
      split.
      * split; [exact Hg|]. cbn [goff ggrid gdata shp axmap]. rewrite !upd_length. split; [exact HL|].
        split; [|split; [exact HLs|]].
        -- intros a Ha. unfold offat at 1. cbn [goff]. destruct (Nat.eq_dec a k) as [->|Hne].
           ++ rewrite nth_upd_same by auto. rewrite Hbsk. cbn [andb]. rewrite Hou. cbn [isbot].
              unfold offat. rewrite Hoff. reflexivity.
           ++ rewrite nth_upd_other by auto. fold (offat w a). rewrite (Ho a Ha), Hbo by auto. reflexivity.
        -- intros a Ha. unfold ushape at 1. cbn [gdata shp axmap]. destruct (Nat.eq_dec a k) as [->|Hne].
           ++ rewrite nth_upd_same by auto. rewrite Hbsk. cbn [andb]. lia.
           ++ rewrite nth_upd_other by auto. rewrite Hbo by auto. apply (Hs a Ha).
      * cbn [gdata shp axmap get]. intros ix Hix.
        pose proof (inb_length _ _ Hix) as HLix. rewrite upd_length in HLix.
        pose proof (@inb_nth _ _ k Hix) as Hr. rewrite upd_length in Hr. specialize (Hr Hal).
        rewrite nth_upd_same in Hr by auto.
        cbn [overr]. unfold wall_value at 1. fold (es k). rewrite E.
        destruct (Z.eqb_spec (nth k ix 0) 0) as [He|Hne].
        -- rewrite pad1_out by lia. replace (_ <? 0) with true by (symmetry; apply Z.ltb_lt; lia). symmetry; exact Hvv.
        -- rewrite pad1_in by lia. rewrite Hget.
           ++ rewrite overr_upd by lia. f_equal. f_equal.
              apply (list_ext_nth 0); [rewrite !lift_length; auto|]. rewrite lift_length. intros a Ha.
              rewrite !lift_nth by auto. destruct (Nat.eq_dec a k) as [->|Hna].
              ** rewrite nth_upd_same by lia. rewrite Hbk, Hbsk, E. cbn [isbot andb]. lia.
              ** rewrite nth_upd_other by auto. rewrite Hbo by auto. reflexivity.
           ++ eapply inb_upd_inv; [exact Hix | auto |]. fold (ushape w k). rewrite Hsu. lia.
  - exists w. split.
    { cbn [isbot] in Hou. destruct (Hreg Hk) as [Hp|[Hc|He]]; [| |exfalso; apply He; exact E].
      - rewrite (periodic_axis_btype Hp). reflexivity.
      - assert (Ho2 : (offat w k == (1 # 2) - inject_Z 0)%Q) by (rewrite Hou; exact Hc).
        rewrite (half_not_one Ho2) by lia. rewrite andb_false_r. reflexivity. }
    split.
    + split; [auto|]. split; [auto|]. split; [|split; [auto|]].
      * intros a Ha. rewrite (Ho a Ha). destruct (Nat.eq_dec a k) as [->|Hne]; [|rewrite Hbo by auto; reflexivity].
        rewrite E. cbn [isbot]. rewrite !andb_false_r. reflexivity.
      * intros a Ha. rewrite (Hs a Ha). destruct (Nat.eq_dec a k) as [->|Hne]; [|rewrite Hbo by auto; reflexivity].
        rewrite E. cbn [isedge]. rewrite !andb_false_r. reflexivity.
    + intros ix Hix. rewrite Hget by auto. cbn [overr]. unfold wall_value at 1. fold (es k). rewrite E.
      f_equal. f_equal. apply lift_ext. intros a Ha.
      destruct (Nat.eq_dec a k) as [->|Hne]; [|rewrite Hbo by auto; reflexivity].
      rewrite E. cbn [isbot]. rewrite !andb_false_r. reflexivity.
Qed.

Lemma pad_steps k m w : (k + m = d)%nat -> trimmed (above k) w ->
  (forall ix, inb (shp (gdata w)) ix -> get (gdata w) ix = overr k ix (get (gdata u) (lift (above k) ix))) ->
  exists w', foldM (fun w ax =>
                     let* _ := is_aligned b w ax in
                     if isDir (fst (btype b ax)) && isclose (offat w ax) 1 then
                       if isclose (nth ax (goff u) 0%Q) 1 then bc_pad_ b w 1 ax EXTEND
                       else if isclose (nth ax (goff u) 0%Q) 0 then bc_pad_ b w (-1) ax EXTEND
                       else Ok w
                     else Ok w) w (seq k m) = Ok w' /\
    trimmed (above d) w' /\
    forall ix, inb (shp (gdata w')) ix -> get (gdata w') ix = overr d ix (get (gdata u) (lift (above d) ix)).
Proof.
  revert k w; induction m as [|m IH]; intros k w Hkm HT Hget.
  - exists w. assert (k = d) as <- by lia. split; [reflexivity|]. auto.
  - cbn [seq foldM].
    destruct (@pad_step k w) as (w' & Et & HT' & Hget'); auto; [lia|].
    rewrite (aligned_step HT) by lia. cbn [bind]. rewrite Et. cbn [bind].
    apply IH; auto. lia.
Qed.

Lemma impose_regular : length (btypes b) = d ->
  exists r, impose_bc b u = Ok (mkgv r b) /\ is_field r (ggrid u) (goff u)
     (fun ix => overr d ix (get (gdata u) ix)).
Proof.
  intros HLb. unfold impose_bc.
  destruct trim_boundary_regular as (w & Ew & HT & Hget). rewrite Ew. cbn [bind].
  unfold pad_and_impose_bc.
  assert (HTe : trimmed (above 0) w).
  { destruct HT as (Hg & HL & Ho & HLs & Hs). split; [auto|]. split; [auto|]. split; [|split; [auto|]].
    - intros a Ha. rewrite (Ho a Ha). unfold below, above. replace (a <? d)%nat with true by (symmetry; apply Nat.ltb_lt; auto). reflexivity.
    - intros a Ha. rewrite (Hs a Ha). unfold below, above. replace (a <? d)%nat with true by (symmetry; apply Nat.ltb_lt; auto). reflexivity. }
  assert (Hgw : gndim (ggrid w) = d) by (destruct HT as (-> & _); reflexivity). rewrite Hgw.
  destruct (@pad_steps 0%nat d w) as (r & Er & HTr & Hgr); [lia | exact HTe | |].
  { intros ix Hix. cbn [overr]. rewrite Hget.
    - f_equal. apply lift_ext. intros a Ha. unfold below, above. replace (a <? d)%nat with true by (symmetry; apply Nat.ltb_lt; auto). reflexivity.
    - rewrite (inb_length _ _ Hix). apply HT. }
  rewrite Er. cbn [bind].
  assert (Habv : forall a, (a < d)%nat -> above d a = false) by (intros a Ha; apply Nat.leb_gt; auto).
  destruct HTr as (Hg & HL & Ho & HLs & Hs).
  exists r. split.
  - unfold mk_gvar. rewrite Hg. fold d. rewrite HLb, Nat.eqb_refl. reflexivity.
  - assert (Hsh : shp (gdata r) = gshape (ggrid u)).
    { apply (list_ext_nth 0%nat); [exact HLs|]. rewrite HLs. intros a Ha. specialize (Hs a Ha).
      rewrite (Habv a Ha) in Hs. exact Hs. }
    split; [auto|]. split; [|split; [exact Hsh|]].
    + apply Forall2_intro_nth with (da := 0%Q) (db := 0%Q); [rewrite HL; symmetry; apply Hu|].
      rewrite HL. intros a Ha. specialize (Ho a Ha). rewrite (Habv a Ha) in Ho. exact Ho.
    + intros ix Hix. rewrite Hgr by (rewrite Hsh; auto). f_equal. f_equal. apply lift_id.
      * apply (inb_length _ _ Hix).
      * intros a Ha. rewrite Habv by auto. reflexivity.
Qed.
End Impose.

Lemma overr_none b u k ix base : (forall a, (a < k)%nat -> wall_value b u a ix = None) -> overr b u k ix base = base.
Proof.
  induction k as [|k IH]; intros H; [reflexivity|]. simpl. rewrite H by lia. apply IH. intros; apply H; lia.
Qed.
Lemma overr_last b u k ix base a v : (a < k)%nat -> wall_value b u a ix = Some v ->
  (forall a', (a < a' < k)%nat -> wall_value b u a' ix = None) -> overr b u k ix base = v.
Proof.
  induction k as [|k IH]; intros Ha Hv H; [lia|]. simpl. destruct (Nat.eq_dec a k) as [->|Hne].
  - rewrite Hv. reflexivity.
  - rewrite H by lia. apply IH; auto; [lia|]. intros; apply H; lia.
Qed.

(* @prop C09 impose_bc on data that on every axis is periodic, cell-centred or edge-aligned between Dirichlet walls returns a variable with the same grid, offset, shape and boundary conditions; entries on no wall are unchanged; an entry on a wall gets the value prescribed by that wall (where walls of several axes meet, by the last such axis). *)
Lemma impose_bc_sets_wall_entries_lem : forall b u,
  wf_garr u -> length (btypes b) = gndim (ggrid u) ->
  (forall a, (a < gndim (ggrid u))%nat -> regular_axis b u a) ->
  exists r, impose_bc b u = Ok (mkgv r b) /\ ggrid r = ggrid u /\ off_eq (goff r) (goff u) /\
    shp (gdata r) = gshape (ggrid u) /\
    forall ix, inb (gshape (ggrid u)) ix ->
      ((forall a, (a < gndim (ggrid u))%nat -> wall_value b u a ix = None) -> get (gdata r) ix = get (gdata u) ix) /\
      (forall a v, (a < gndim (ggrid u))%nat -> wall_value b u a ix = Some v ->
         (forall a', (a < a' < gndim (ggrid u))%nat -> wall_value b u a' ix = None) -> get (gdata r) ix = v).
Proof.
  intros b u Hu HL Hreg. destruct (@impose_regular b u Hu Hreg HL) as (r & E & Hg & Ho & Hs & Hget).
  exists r. split; [exact E|]. split; [auto|]. split; [auto|]. split; [auto|].
  intros ix Hix. rewrite Hget by auto. split.
  - intros H. apply overr_none; auto.
  - intros a v Ha Hv H. eapply overr_last; eauto.
Qed.

(** Velocity component normal to the walls of a channel, on the cell faces (offset 1 along y). *)
Definition exv : garr := mkga (gdata exu) [(1 # 2)%Q; 1%Q] exg.
Lemma exv_wf : wf_garr exv.
Proof. repeat split; repeat constructor; (lia || lra). Qed.
Lemma exv_regular : forall a, (a < gndim (ggrid exv))%nat -> regular_axis (exb Dirichlet Dirichlet) exv a.
Proof.
  unfold gndim. simpl. intros [|[|a]] Ha; [left; reflexivity | right; right; discriminate | lia].
Qed.
(* @ex *)
Lemma impose_bc_sets_wall_entries_ex_lem :
  exists r, impose_bc (exb Dirichlet Dirichlet) exv = Ok (mkgv r (exb Dirichlet Dirichlet)) /\
    get (gdata r) (ix2 1 2) = 7%R /\ get (gdata r) (ix2 1 1) = 11%R.
Proof.
  destruct (@impose_bc_sets_wall_entries_lem (exb Dirichlet Dirichlet) exv exv_wf eq_refl exv_regular) as (r & E & Hg & Ho & Hs & H).
  exists r. split; [exact E|]. split.
  - destruct (H (ix2 1 2)) as [_ Hb]; [simpl; lia|]. apply (Hb 1%nat).
    + unfold gndim; simpl; lia.
    + reflexivity.
    + unfold gndim; simpl; intros; lia.
  - destruct (H (ix2 1 1)) as [Ha _]; [simpl; lia|]. rewrite Ha; [reflexivity|].
    unfold gndim; simpl. intros [|[|a]] Hlt; [reflexivity | reflexivity | lia].
Qed.

(* @prop C09 Without an edge-aligned Dirichlet axis (everything periodic or cell-centred) impose_bc changes nothing. *)
Lemma impose_bc_no_walls_lem : forall b u,
  wf_garr u -> length (btypes b) = gndim (ggrid u) ->
  (forall a, (a < gndim (ggrid u))%nat -> periodic_axis b a \/ centred u a) ->
  exists r, impose_bc b u = Ok (mkgv r b) /\ same_field r u.
Proof.
  intros b u Hu HL Hfree.
  assert (Hreg : forall a, (a < gndim (ggrid u))%nat -> regular_axis b u a).
  { intros a Ha. destruct (Hfree a Ha); [left; auto | right; left; auto]. }
  destruct (@impose_regular b u Hu Hreg HL) as (r & E & Hg & Ho & Hs & Hget).
  exists r. split; [exact E|]. split; [auto|]. split; [auto|].
  assert (Hsu : shp (gdata u) = gshape (ggrid u)) by apply Hu.
  split; [congruence|]. intros ix Hix. rewrite Hget by congruence. apply overr_none.
  intros a Ha. unfold wall_value. destruct (edge_side b (goff u) a) as [[s v]|] eqn:Ee; [|reflexivity].
  destruct (edge_side_inv _ _ _ Ee) as (Hb & _ & Hoff). exfalso.
  destruct (Hfree a Ha) as [Hp|Hc].
  - rewrite (periodic_axis_btype Hp) in Hb. discriminate.
  - unfold centred in Hc. rewrite Hc in Hoff. destruct s; discriminate.
Qed.
(* @ex *)
Lemma impose_bc_no_walls_ex_lem :
  wf_garr exu /\ length (btypes (exb Dirichlet Neumann)) = gndim (ggrid exu) /\
  (forall a, (a < gndim (ggrid exu))%nat -> periodic_axis (exb Dirichlet Neumann) a \/ centred exu a).
Proof.
  split; [apply exu_wf|]. split; [reflexivity|]. unfold gndim; simpl.
  intros [|[|a]] Ha; [left; reflexivity | right; reflexivity | lia].
Qed.

Lemma wall_value_congr b u r a ix : ggrid r = ggrid u -> off_eq (goff r) (goff u) ->
  wall_value b r a ix = wall_value b u a ix.
Proof.
  intros Hg Ho. unfold wall_value, edge_side. rewrite Hg.
  assert (Hq : forall q, Qeq_bool (nth a (goff r) 0%Q) q = Qeq_bool (nth a (goff u) 0%Q) q).
  { intros q. apply eq_true_iff_eq. rewrite !Qeq_bool_iff.
    destruct (Nat.lt_ge_cases a (length (goff r))) as [H|H].
    - rewrite (@Forall2_nth' _ _ _ _ _ a 0%Q 0%Q Ho H). reflexivity.
    - rewrite !nth_overflow by (rewrite <- ?(off_eq_length Ho); lia). reflexivity. }
  rewrite !Hq. reflexivity.
Qed.

(* @prop C09 impose_bc is idempotent: applied to its own result it returns the same field. *)
Lemma impose_bc_idempotent_lem : forall b u,
  wf_garr u -> length (btypes b) = gndim (ggrid u) ->
  (forall a, (a < gndim (ggrid u))%nat -> regular_axis b u a) ->
  exists r r2, impose_bc b u = Ok (mkgv r b) /\ impose_bc b r = Ok (mkgv r2 b) /\ same_field r2 r.
Proof.
  intros b u Hu HL Hreg. destruct (@impose_regular b u Hu Hreg HL) as (r & E & Hg & Ho & Hs & Hget).
  assert (Hr : wf_garr r).
  { split; [rewrite Hg; apply Hu|]. split; [congruence|]. rewrite (off_eq_length Ho), Hg. apply Hu. }
  assert (Hwv := fun a ix => @wall_value_congr b u r a ix Hg Ho).
  assert (Hregr : forall a, (a < gndim (ggrid r))%nat -> regular_axis b r a).
  { rewrite Hg. intros a Ha. destruct (Hreg a Ha) as [Hp|[Hc|He]]; [left; auto | right; left | right; right].
    - unfold centred in *. rewrite (@Forall2_nth' _ _ _ _ _ a 0%Q 0%Q Ho); auto.
      rewrite (off_eq_length Ho). destruct Hu as (_ & _ & ->). auto.
    - unfold edge_side in *. 
      destruct (nth_error (btypes b) a) as [[[] []]|]; auto.
      destruct (nth_error (bvals b) a) as [[[lo|] [hi|]]|]; auto.
      assert (Hq : forall q, Qeq_bool (nth a (goff r) 0%Q) q = Qeq_bool (nth a (goff u) 0%Q) q).
      { intros q. apply eq_true_iff_eq. rewrite !Qeq_bool_iff.
        rewrite (@Forall2_nth' _ _ _ _ _ a 0%Q 0%Q Ho); [reflexivity|].
        rewrite (off_eq_length Ho). destruct Hu as (_ & _ & ->). auto. }
      rewrite !Hq. auto. }
  destruct (@impose_regular b r Hr Hregr) as (r2 & E2 & Hg2 & Ho2 & Hs2 & Hget2); [rewrite Hg; auto|].
  exists r, r2. split; [exact E|]. split; [exact E2|]. split; [auto|]. split; [auto|]. split; [congruence|].
  intros ix Hix. rewrite Hget2 by congruence. rewrite Hg.
  rewrite Hget by congruence.
  generalize (get (gdata u) ix). intros x. generalize (gndim (ggrid u)). intros k.
  induction k as [|k IH]; [reflexivity|]. cbn [overr]. rewrite Hwv.
  destruct (wall_value b u k ix) as [v|] eqn:Ev; [reflexivity|].
  cbn [overr] in IH. exact IH.
Qed.
(* @ex *)
Lemma impose_bc_idempotent_ex_lem :
  wf_garr exv /\ length (btypes (exb Dirichlet Dirichlet)) = gndim (ggrid exv) /\
  (forall a, (a < gndim (ggrid exv))%nat -> regular_axis (exb Dirichlet Dirichlet) exv a).
Proof. split; [apply exv_wf|]. split; [reflexivity | apply exv_regular]. Qed.
