(** * Padding at Dirichlet / Neumann walls: lemmas about the model *)
From Verif Require Import Prelude NdArr Grids_model Spec Boundaries_model BoundariesPeriodic.
From Coq Require Import Setoid Morphisms.
From Coq Require Lqa.
Set Implicit Arguments.

Global Instance isclose_proper : Proper (Qeq ==> Qeq ==> eq) isclose.
Proof.
  intros a a' Ha b b' Hb. unfold isclose. apply Qleb_comp.
  - apply Qabs_wd. rewrite Ha, Hb. reflexivity.
  - rewrite (Qabs_wd _ _ Hb). reflexivity.
Qed.
Global Instance mod1_proper : Proper (Qeq ==> Qeq) mod1.
Proof. intros a a' Ha. unfold mod1. rewrite (Qfloor_comp _ _ Ha), Ha. reflexivity. Qed.

Lemma Qfloor_add_Z q z : Qfloor (q + inject_Z z) = (Qfloor q + z)%Z.
Proof.
  destruct q as [a b]. unfold Qfloor, Qplus, inject_Z. cbn [Qnum Qden].
  rewrite Pos.mul_1_r, Z.mul_1_r. rewrite Z.div_add by lia. reflexivity.
Qed.
Lemma Qceiling_add_Z q z : Qceiling (q + inject_Z z) = (Qceiling q + z)%Z.
Proof.
  unfold Qceiling. rewrite (@Qfloor_comp (- (q + inject_Z z)) (- q + inject_Z (- z))).
  - rewrite Qfloor_add_Z. lia.
  - rewrite inject_Z_opp. ring.
Qed.
Lemma mod1_add_Z q z : mod1 (q + inject_Z z) == mod1 q.
Proof. unfold mod1. rewrite Qfloor_add_Z, inject_Z_plus. ring. Qed.

Lemma mod1_half L : mod1 ((1 # 2) - inject_Z L) == (1 # 2).
Proof.
  unfold Qminus. rewrite <- inject_Z_opp, mod1_add_Z. reflexivity.
Qed.
Lemma mod1_int z : mod1 (inject_Z z) == 0.
Proof. rewrite <- (Qplus_0_l (inject_Z z)), mod1_add_Z. reflexivity. Qed.

Lemma half_isclose q L : q == (1 # 2) - inject_Z L -> isclose (mod1 q) (1 # 2) = true.
Proof. intros H. rewrite H, mod1_half. reflexivity. Qed.
Lemma half_not_int q L : q == (1 # 2) - inject_Z L -> isclose (mod1 q) 0 = false.
Proof. intros H. rewrite H, mod1_half. reflexivity. Qed.
Lemma half_not_one q L : q == (1 # 2) - inject_Z L -> (0 <= L)%Z -> isclose q 1 = false.
Proof.
  intros H HL. unfold isclose. destruct (Qle_bool _ _) eqn:E; [|reflexivity]. exfalso.
  apply Qle_bool_iff in E. rewrite H in E.
  assert (Ha : (1 # 2) <= Qabs ((1 # 2) - inject_Z L - 1)).
  { rewrite <- Qabs_opp. eapply Qle_trans; [|apply Qle_Qabs].
    assert (0 <= inject_Z L) by (change 0 with (inject_Z 0); rewrite <- Zle_Qle; auto). Lqa.lra. }
  change (Qabs 1) with 1 in E. Lqa.lra.
Qed.
Lemma int_isclose q z : q == inject_Z z -> isclose (mod1 q) 0 = true.
Proof. intros H. rewrite H, mod1_int. reflexivity. Qed.
Lemma int_not_half q z : q == inject_Z z -> isclose (mod1 q) (1 # 2) = false.
Proof. intros H. rewrite H, mod1_int. reflexivity. Qed.

(** ** One padded line *)
Lemma pad1_in m n lo f j : (0 <= j - lo < Z.of_nat n)%Z -> pad1 m n lo f j = f (j - lo)%Z.
Proof.
  intros H. unfold pad1.
  replace ((0 <=? j - lo) && (j - lo <? Z.of_nat n))%Z with true; [reflexivity|].
  symmetry. apply andb_true_iff. split; [apply Z.leb_le | apply Z.ltb_lt]; lia.
Qed.
Lemma pad1_out m n lo f j : ~ (0 <= j - lo < Z.of_nat n)%Z -> pad1 m n lo f j =
  match m with
  | NpConstant a b => if (j - lo <? 0)%Z then a else b
  | NpWrap => f ((j - lo) mod Z.of_nat n)%Z
  | NpSymmetric => f (symm_index (Z.of_nat n) (j - lo))
  | NpReflect => f (refl_index (Z.of_nat n) (j - lo))
  | NpEdge => f (edge_index (Z.of_nat n) (j - lo))
  end.
Proof.
  intros H. unfold pad1.
  replace ((0 <=? j - lo) && (j - lo <? Z.of_nat n))%Z with false; [reflexivity|].
  symmetry. apply andb_false_iff. rewrite Z.leb_gt, Z.ltb_ge. lia.
Qed.

Lemma symm_in n i : (0 <= i < n)%Z -> symm_index n i = i.
Proof. intros H. unfold symm_index. rewrite Z.mod_small by lia. destruct (Z.ltb_spec i n); lia. Qed.
Lemma symm_lo n i : (- n <= i < 0)%Z -> symm_index n i = (-1 - i)%Z.
Proof.
  intros H. unfold symm_index.
  replace (i mod (2 * n))%Z with (i + 2 * n)%Z.
  - destruct (Z.ltb_spec (i + 2 * n) n); lia.
  - symmetry. rewrite <- (Z.mod_add i 1) by lia. rewrite Z.mul_1_l. apply Z.mod_small; lia.
Qed.
Lemma symm_hi n i : (n <= i < 2 * n)%Z -> symm_index n i = (2 * n - 1 - i)%Z.
Proof. intros H. unfold symm_index. rewrite Z.mod_small by lia. destruct (Z.ltb_spec i n); lia. Qed.
Lemma symm_range n i : (0 < n)%Z -> (0 <= symm_index n i < n)%Z.
Proof.
  intros H. unfold symm_index. pose proof (Z.mod_pos_bound i (2 * n) ltac:(lia)).
  destruct (Z.ltb_spec (i mod (2 * n)) n); lia.
Qed.
Lemma edge_lo n i : (0 < n)%Z -> (i <= 0)%Z -> edge_index n i = 0%Z.
Proof. unfold edge_index; lia. Qed.
Lemma edge_hi n i : (0 < n)%Z -> (n - 1 <= i)%Z -> edge_index n i = (n - 1)%Z.
Proof. unfold edge_index; lia. Qed.

Lemma np_pad_Ok a ax lo hi m : (0 <= lo)%Z -> (0 <= hi)%Z -> (0 < nth ax (shp a) 0)%nat ->
  np_pad a ax (lo, hi) m =
  Ok (axmap ax (Z.to_nat (lo + Z.of_nat (nth ax (shp a) 0%nat) + hi)) (pad1 m (nth ax (shp a) 0%nat) lo) a).
Proof.
  intros Hlo Hhi Hn. unfold np_pad.
  replace (lo <? 0)%Z with false by (symmetry; apply Z.ltb_ge; lia).
  replace (hi <? 0)%Z with false by (symmetry; apply Z.ltb_ge; lia).
  simpl orb. cbv iota.
  replace (nth ax (shp a) 0 =? 0)%nat with false by (symmetry; apply Nat.eqb_neq; lia).
  destruct m; reflexivity.
Qed.

(** ** Padding a cell-centred array at a wall: general form.
    [src] is where the ghost cell reads. *)
Definition ghost_src (mode : padmode) (total n i : Z) : Z :=
  if ((total =? 1) || (total =? 0))%Z then symm_index n i
  else match mode with MIRROR => symm_index n i | _ => edge_index n i end.

Definition mode_ok (mode : padmode) (total : Z) : Prop := mode <> PadOther \/ total = 1%Z \/ total = 0%Z.

Lemma mode_cases mode total : mode_ok mode total ->
  (if ((total =? 1) || (total =? 0))%Z then true else false) = true \/
  ((if ((total =? 1) || (total =? 0))%Z then true else false) = false /\ mode <> PadOther).
Proof.
  intros [H | [-> | ->]]; [|left; reflexivity|left; reflexivity].
  destruct ((total =? 1) || (total =? 0))%Z; auto.
Qed.

Definition opt0 (o : option R) : R := match o with Some x => x | None => 0%R end.

Lemma const_mode_Ok v lo hi :
  (lo = 0%Z \/ exists x, fst v = Some x) -> (hi = 0%Z \/ exists x, snd v = Some x) ->
  const_mode v (lo, hi) = Ok (NpConstant (opt0 (fst v)) (opt0 (snd v))).
Proof.
  intros H1 H2. unfold const_mode. cbn [fst snd].
  destruct v as [[a|] [c|]]; cbn [fst snd] in *; cbn [bind opt0].
  - reflexivity.
  - destruct H2 as [-> | [x Hx]]; [reflexivity | discriminate].
  - destruct H1 as [-> | [x Hx]]; [reflexivity | discriminate].
  - destruct H2 as [-> | [x Hx]]; [|discriminate]. destruct H1 as [-> | [x Hx]]; [reflexivity|discriminate].
Qed.

(** Dirichlet branch, cell-centred. *)
Lemma pad_dirichlet_centred b u ax lo hi mode L :
  offat u ax == (1 # 2) - inject_Z L ->
  (0 <= lo)%Z -> (0 <= hi)%Z -> (0 < ushape u ax)%nat ->
  (lo = 0%Z \/ exists x, fst (bval b ax) = Some x) ->
  (hi = 0%Z \/ exists x, snd (bval b ax) = Some x) ->
  mode_ok mode (lo + hi) ->
  exists d, pad_dirichlet b u ax (lo, hi) mode = Ok d /\
    shp d = upd ax (Z.to_nat (lo + Z.of_nat (ushape u ax) + hi)) (shp (gdata u)) /\
    forall ix, get d ix =
      let i := (nth ax ix 0 - lo)%Z in
      let n := Z.of_nat (ushape u ax) in
      if ((0 <=? i) && (i <? n))%Z then get (gdata u) (upd ax i ix)
      else (2 * opt0 (if (i <? 0)%Z then fst (bval b ax) else snd (bval b ax))
            - get (gdata u) (upd ax (ghost_src mode (lo + hi) n i) ix))%R.
Proof.
  intros Ho Hlo Hhi Hn Hv1 Hv2 Hm.
  unfold pad_dirichlet. cbn [fst snd]. rewrite (half_isclose Ho).
  rewrite const_mode_Ok by auto. cbn [bind].
  assert (Hgen : forall pm,
    (forall n' f j, ~ (0 <= j - lo < Z.of_nat n')%Z ->
        pad1 pm n' lo f j = f (ghost_src mode (lo + hi) (Z.of_nat n') (j - lo))) ->
    exists d, (let* p := np_pad (gdata u) ax (lo, hi) (NpConstant (opt0 (fst (bval b ax))) (opt0 (snd (bval b ax)))) in
      let* q := np_pad (gdata u) ax (lo, hi) pm in Ok (scal_sub p q)) = Ok d /\
    shp d = upd ax (Z.to_nat (lo + Z.of_nat (ushape u ax) + hi)) (shp (gdata u)) /\
    forall ix, get d ix =
      let i := (nth ax ix 0 - lo)%Z in
      let n := Z.of_nat (ushape u ax) in
      if ((0 <=? i) && (i <? n))%Z then get (gdata u) (upd ax i ix)
      else (2 * opt0 (if (i <? 0)%Z then fst (bval b ax) else snd (bval b ax))
            - get (gdata u) (upd ax (ghost_src mode (lo + hi) n i) ix))%R).
  { intros pm Hpm. rewrite !np_pad_Ok by auto. cbn [bind].
    eexists; split; [reflexivity|]. split; [reflexivity|].
    intros ix. cbn [get scal_sub amap2 axmap]. fold (ushape u ax).
    set (i := (nth ax ix 0 - lo)%Z).
    destruct ((0 <=? i) && (i <? Z.of_nat (ushape u ax)))%Z eqn:E; cbv zeta.
    - apply andb_true_iff in E. rewrite Z.leb_le, Z.ltb_lt in E.
      rewrite !pad1_in by (unfold i in *; lia). fold i. ring.
    - apply andb_false_iff in E. rewrite Z.leb_gt, Z.ltb_ge in E.
      rewrite (Hpm (ushape u ax)) by (unfold i in *; lia).
      rewrite pad1_out by (unfold i in *; lia). fold i.
      destruct (i <? 0)%Z; reflexivity. }
  unfold mode_ok in Hm. unfold ghost_src in *.
  destruct ((lo + hi =? 1) || (lo + hi =? 0))%Z eqn:Et.
  - apply (Hgen NpSymmetric). intros n' f j Hj. rewrite pad1_out by auto. reflexivity.
  - destruct mode.
    + apply (Hgen NpSymmetric). intros n' f j Hj. rewrite pad1_out by auto. reflexivity.
    + apply (Hgen NpEdge). intros n' f j Hj. rewrite pad1_out by auto. reflexivity.
    + exfalso. destruct Hm as [Hm|Hm]; [congruence|].
      apply orb_false_iff in Et. rewrite !Z.eqb_neq in Et. lia.
Qed.

Lemma pad_neumann_centred b u ax lo hi width mode L :
  offat u ax == (1 # 2) - inject_Z L ->
  (0 <= lo)%Z -> (0 <= hi)%Z -> (0 < ushape u ax)%nat ->
  (lo = 0%Z \/ exists x, fst (bval b ax) = Some x) ->
  (hi = 0%Z \/ exists x, snd (bval b ax) = Some x) ->
  mode_ok mode (lo + hi) ->
  exists d, pad_neumann b u ax (lo, hi) width mode = Ok d /\
    shp d = upd ax (Z.to_nat (lo + Z.of_nat (ushape u ax) + hi)) (shp (gdata u)) /\
    forall ix, get d ix =
      let i := (nth ax ix 0 - lo)%Z in
      let n := Z.of_nat (ushape u ax) in
      if ((0 <=? i) && (i <? n))%Z then get (gdata u) (upd ax i ix)
      else (get (gdata u) (upd ax (ghost_src mode (lo + hi) n i) ix)
            + derivative_direction width * nth ax (gstep (ggrid u)) 0
              * opt0 (if (i <? 0)%Z then fst (bval b ax) else snd (bval b ax)))%R.
Proof.
  intros Ho Hlo Hhi Hn Hv1 Hv2 Hm.
  unfold pad_neumann. cbn [fst snd]. rewrite (half_isclose Ho). cbn [negb].
  assert (Hgen : forall pm,
    (forall n' f j, ~ (0 <= j - lo < Z.of_nat n')%Z ->
        pad1 pm n' lo f j = f (ghost_src mode (lo + hi) (Z.of_nat n') (j - lo))) ->
    exists d, (let* p := np_pad (gdata u) ax (lo, hi) pm in
    let* z := np_pad (gdata u) ax (lo, hi) (NpConstant 0 0) in
    let* cm := const_mode (bval b ax) (lo, hi) in
    let* c := np_pad (gdata u) ax (lo, hi) cm in
    Ok (amap2 (fun x d => x - derivative_direction width * nth ax (gstep (ggrid u)) 0 * d)%R p
              (amap2 Rminus z c))) = Ok d /\
    shp d = upd ax (Z.to_nat (lo + Z.of_nat (ushape u ax) + hi)) (shp (gdata u)) /\
    forall ix, get d ix =
      let i := (nth ax ix 0 - lo)%Z in
      let n := Z.of_nat (ushape u ax) in
      if ((0 <=? i) && (i <? n))%Z then get (gdata u) (upd ax i ix)
      else (get (gdata u) (upd ax (ghost_src mode (lo + hi) n i) ix)
            + derivative_direction width * nth ax (gstep (ggrid u)) 0
              * opt0 (if (i <? 0)%Z then fst (bval b ax) else snd (bval b ax)))%R).
  { intros pm Hpm. rewrite const_mode_Ok by auto. rewrite !np_pad_Ok by auto. cbn [bind].
    rewrite np_pad_Ok by auto. cbn [bind].
    eexists; split; [reflexivity|]. split; [reflexivity|].
    intros ix. cbn [get amap2 axmap]. fold (ushape u ax).
    set (i := (nth ax ix 0 - lo)%Z).
    destruct ((0 <=? i) && (i <? Z.of_nat (ushape u ax)))%Z eqn:E; cbv zeta.
    - apply andb_true_iff in E. rewrite Z.leb_le, Z.ltb_lt in E.
      rewrite !pad1_in by (unfold i in *; lia). fold i. ring.
    - apply andb_false_iff in E. rewrite Z.leb_gt, Z.ltb_ge in E.
      rewrite (Hpm (ushape u ax)) by (unfold i in *; lia).
      rewrite !pad1_out by (unfold i in *; lia). fold i.
      destruct (i <? 0)%Z; ring. }
  unfold mode_ok in Hm. unfold ghost_src in *.
  destruct ((lo + hi =? 1) || (lo + hi =? 0))%Z eqn:Et; cbn [bind].
  - apply (Hgen NpSymmetric). intros n' f j Hj. rewrite pad1_out by auto. reflexivity.
  - destruct mode; cbn [bind].
    + apply (Hgen NpSymmetric). intros n' f j Hj. rewrite pad1_out by auto. reflexivity.
    + apply (Hgen NpEdge). intros n' f j Hj. rewrite pad1_out by auto. reflexivity.
    + exfalso. destruct Hm as [Hm|Hm]; [congruence|].
      apply orb_false_iff in Et. rewrite !Z.eqb_neq in Et. lia.
Qed.

(** ** Trimming before padding removes exactly the padding on the side that is padded. *)
Lemma Qceiling_half L : Qceiling (- ((1 # 2) - inject_Z L)) = L.
Proof.
  rewrite (@Qceiling_comp _ (- (1 # 2) + inject_Z L)) by ring.
  rewrite Qceiling_add_Z. reflexivity.
Qed.

Lemma trim_left_wall b u ax L n H :
  isPer (fst (btype b ax)) = false ->
  (ax < length (shp (gdata u)))%nat -> (ax < length (goff u))%nat ->
  offat u ax == (1 # 2) - inject_Z L -> (0 <= L)%Z -> (0 <= H)%Z ->
  gshp u ax = n -> Z.of_nat (ushape u ax) = (L + Z.of_nat n + H)%Z ->
  exists u', trim_padding b u ax LeftSide = Ok (u', (L, 0%Z)) /\
    ggrid u' = ggrid u /\ off_eq (goff u') (upd ax (1 # 2) (goff u)) /\
    shp (gdata u') = upd ax (Z.to_nat (Z.of_nat n + H)) (shp (gdata u)) /\
    forall ix, (ax < length ix)%nat -> get (gdata u') ix = get (gdata u) (shiftix ax L ix).
Proof.
  intros Hb Hax Hol Ho HL HH Hn Hs. unfold trim_padding.
  replace (gshp u ax <=? ushape u ax)%nat with true by (symmetry; apply Nat.leb_le; lia).
  destruct (Z.eq_dec L 0) as [-> | HL0].
  - assert (E : Qle_bool (offat u ax) 0 = false).
    { rewrite (Qleb_comp _ _ Ho _ 0 (Qeq_refl 0)). reflexivity. }
    rewrite E. cbn [andb bind]. cbv iota zeta. cbn [Z.ltb Z.compare bind Z.opp].
    exists u. split; [reflexivity|]. split; [reflexivity|]. split.
    + apply Forall2_intro_nth with (da := 0) (db := 0); [rewrite upd_length; reflexivity|].
      intros k Hk. destruct (Nat.eq_dec k ax) as [-> | Hne].
      * rewrite nth_upd_same by auto. unfold offat in Ho. rewrite Ho. reflexivity.
      * rewrite nth_upd_other by auto. reflexivity.
    + split.
      * replace (Z.to_nat (Z.of_nat n + H)) with (ushape u ax) by lia. unfold ushape. rewrite upd_nth_same. reflexivity.
      * intros ix _. rewrite shiftix_0. reflexivity.
  - assert (E : Qle_bool (offat u ax) 0 = true).
    { rewrite (Qleb_comp _ _ Ho _ 0 (Qeq_refl 0)). apply Qle_bool_iff.
      assert (1 <= inject_Z L) by (change 1 with (inject_Z 1); rewrite <- Zle_Qle; lia). Lqa.lra. }
    rewrite E. cbn [andb]. cbv iota zeta.
    assert (En : neg_trim b u ax = (- L)%Z).
    { unfold neg_trim. rewrite Hb. rewrite (half_not_int Ho).
      assert (E2 : Qceiling (- offat u ax) = L).
      { rewrite (@Qceiling_comp _ (- ((1 # 2) - inject_Z L))) by (rewrite Ho; reflexivity). apply Qceiling_half. }
      rewrite E2. reflexivity. }
    rewrite En. rewrite bc_trim_spec by lia. cbn [bind]. cbn [Z.ltb Z.compare bind].
    rewrite Z.opp_involutive. eexists; split; [reflexivity|]. cbn [ggrid goff gdata shp axmap get].
    split; [reflexivity|]. replace (Z.max 0 L) with L by lia. split.
    + apply Forall2_intro_nth with (da := 0) (db := 0); [rewrite !upd_length; reflexivity|].
      rewrite upd_length. intros k Hk. destruct (Nat.eq_dec k ax) as [-> | Hne].
      * rewrite !nth_upd_same by auto. rewrite Ho. ring.
      * rewrite !nth_upd_other by auto. reflexivity.
    + split; [f_equal; lia|]. intros ix Hix. reflexivity.
Qed.

Lemma trim_right_wall b u ax L n H :
  isPer (snd (btype b ax)) = false ->
  (ax < length (shp (gdata u)))%nat ->
  offat u ax == (1 # 2) - inject_Z L -> (0 <= L)%Z -> (0 <= H)%Z ->
  gshp u ax = n -> Z.of_nat (ushape u ax) = (L + Z.of_nat n + H)%Z ->
  exists u', trim_padding b u ax RightSide = Ok (u', (0%Z, H)) /\
    ggrid u' = ggrid u /\ offat u' ax == offat u ax /\
    shp (gdata u') = upd ax (Z.to_nat (L + Z.of_nat n)) (shp (gdata u)) /\
    off_eq (goff u') (goff u) /\
    forall ix, (ax < length ix)%nat -> get (gdata u') ix = get (gdata u) ix.
Proof.
  intros Hb Hax Ho HL HH Hn Hs. unfold trim_padding.
  replace (gshp u ax <=? ushape u ax)%nat with true by (symmetry; apply Nat.leb_le; lia).
  replace (Qle_bool (offat u ax) 0 && false) with false by (rewrite andb_false_r; reflexivity).
  cbn [bind]. cbv iota zeta.
  assert (Er : forall q, inject_Z (Z.of_nat (ushape u ax)) + offat u ax - 1 - q ==
                 inject_Z (Z.of_nat n + H) - (1 # 2) - q).
  { intros q. rewrite Ho, Hs, !inject_Z_plus. ring. }
  assert (Ep : pos_trim b u ax = H).
  { unfold pos_trim. rewrite Hb. rewrite Hn, (half_not_int Ho), andb_false_r.
    destruct (Qle_bool _ _) eqn:E.
    - rewrite (@Qceiling_comp _ ((- (1 # 2)) + inject_Z H)).
      + rewrite Qceiling_add_Z. change (Qceiling (- (1 # 2))) with 0%Z. lia.
      + rewrite Er, inject_Z_plus. ring.
    - destruct (Z.eq_dec H 0) as [-> | HH0]; [reflexivity|]. exfalso.
      assert (E2 : Qle_bool (inject_Z (Z.of_nat n)) (inject_Z (Z.of_nat (ushape u ax)) + offat u ax - 1) = true).
      { apply Qle_bool_iff. setoid_replace (inject_Z (Z.of_nat (ushape u ax)) + offat u ax - 1)
          with (inject_Z (Z.of_nat n) + inject_Z H - (1 # 2)) by (rewrite Ho, Hs, !inject_Z_plus; ring).
        assert (1 <= inject_Z H) by (change 1 with (inject_Z 1); rewrite <- Zle_Qle; lia). Lqa.lra. }
      congruence. }
  rewrite Ep. destruct (Z.ltb_spec 0 H) as [HHp|HHn].
  - rewrite bc_trim_spec by lia. cbn [bind]. eexists; split; [reflexivity|].
    cbn [ggrid goff gdata shp axmap get]. replace (Z.max 0 (- H)) with 0%Z by lia.
    assert (Hoff : off_eq (upd ax (offat u ax + inject_Z 0) (goff u)) (goff u)).
    { apply Forall2_intro_nth with (da := 0) (db := 0); [rewrite upd_length; reflexivity|].
      rewrite upd_length. intros k Hk. destruct (Nat.eq_dec k ax) as [-> | Hne].
      - rewrite nth_upd_same by auto. unfold offat. change (inject_Z 0) with 0. ring.
      - rewrite nth_upd_other by auto. reflexivity. }
    split; [reflexivity|]. split.
    + unfold offat at 1. cbn [goff]. destruct (Nat.lt_ge_cases ax (length (goff u))) as [Hl|Hl].
      * rewrite nth_upd_same by auto. change (inject_Z 0) with 0. ring.
      * rewrite upd_overflow by auto. reflexivity.
    + split; [f_equal; lia|]. split; [exact Hoff|].
      intros ix Hix. rewrite Z.add_0_r, upd_nth_same. reflexivity.
  - assert (H = 0%Z) as -> by lia. cbn [bind]. exists u. split; [reflexivity|]. split; [reflexivity|].
    split; [reflexivity|]. split.
    + replace (Z.to_nat (L + Z.of_nat n)) with (ushape u ax) by lia. unfold ushape. rewrite upd_nth_same. reflexivity.
    + split; [|auto]. apply Forall2_intro_nth with (da := 0) (db := 0); [reflexivity|]. intros; reflexivity.
Qed.

(** Value of a ghost cell at a wall of type [t] with value [v]: [s] is -1 below, +1 above,
    [h] the cell width and [x] the value read. *)
Definition ghost_val (t : bctype) (s h v x : R) : R :=
  match t with Dirichlet => (2 * v - x)%R | _ => (x + s * h * v)%R end.
Definition is_wall (t : bctype) : Prop := t = Dirichlet \/ t = Neumann.

Lemma is_wall_per t : is_wall t -> isPer t = false.
Proof. intros [-> | ->]; reflexivity. Qed.

Lemma off_upd_eq ax q q' o : q == q' -> off_eq (upd ax q o) (upd ax q' o).
Proof.
  intros H. apply Forall2_intro_nth with (da := 0) (db := 0); [rewrite !upd_length; reflexivity|].
  rewrite upd_length. intros k Hk. destruct (Nat.eq_dec k ax) as [->|Hne].
  - rewrite !nth_upd_same by auto. auto.
  - rewrite !nth_upd_other by auto. reflexivity.
Qed.

Lemma wall_pad_lower b u w ax mode t v L n H :
  fst (btype b ax) = t -> is_wall t -> fst (bval b ax) = Some v ->
  (ax < gndim (ggrid u))%nat -> (ax < length (shp (gdata u)))%nat -> (ax < length (goff u))%nat ->
  offat u ax == (1 # 2) - inject_Z L -> (0 <= L)%Z -> (0 <= H)%Z ->
  gshp u ax = n -> (0 < n)%nat -> Z.of_nat (ushape u ax) = (L + Z.of_nat n + H)%Z ->
  (1 <= w)%Z -> mode_ok mode (w + L) ->
  exists r, bc_pad_ b u (- w) ax mode = Ok r /\ ggrid r = ggrid u /\
    goff r = upd ax (offat u ax - inject_Z w) (goff u) /\
    shp (gdata r) = upd ax (Z.to_nat (w + L + Z.of_nat n + H)) (shp (gdata u)) /\
    forall ix, (ax < length ix)%nat -> (nth ax ix 0 < w + L + Z.of_nat n + H)%Z ->
      get (gdata r) ix =
        let i := (nth ax ix 0 - (w + L))%Z in
        if (0 <=? i)%Z then get (gdata u) (upd ax (i + L)%Z ix)
        else ghost_val t (-1) (nth ax (gstep (ggrid u)) 0%R) v
               (get (gdata u) (upd ax (ghost_src mode (w + L) (Z.of_nat n + H) i + L)%Z ix)).
Proof.
  intros Hb Hw Hv Hd Hax Hol Ho HL HH Hg Hn Hs Hw1 Hm.
  destruct (@trim_left_wall b u ax L n H) as (u' & Et & Hg' & Ho' & Hs' & Hget'); auto.
  { rewrite Hb; apply is_wall_per; auto. }
  unfold bc_pad_.
  replace (ax <? gndim (ggrid u))%nat with true by (symmetry; apply Nat.ltb_lt; auto). cbn [negb].
  replace (- w <? 0)%Z with true by (symmetry; apply Z.ltb_lt; lia).
  replace (0 <=? - w)%Z with false by (symmetry; apply Z.leb_gt; lia).
  rewrite Hb, (is_wall_per Hw). cbn [fst snd]. rewrite Et. cbn [bind fst snd].
  rewrite Z.opp_involutive. cbn [Z.add].
  assert (Hou : offat u' ax == (1 # 2) - inject_Z 0).
  { unfold offat. rewrite (@Forall2_nth' _ _ _ _ _ ax 0 0 Ho') by (rewrite (Forall2_length' Ho'), upd_length; auto).
    rewrite nth_upd_same by auto. reflexivity. }
  assert (Hsu : ushape u' ax = Z.to_nat (Z.of_nat n + H)).
  { unfold ushape. rewrite Hs', nth_upd_same by auto. reflexivity. }
  assert (Hfin : forall (d : result (arr R)),
    (exists d', d = Ok d' /\ shp d' = upd ax (Z.to_nat (w + L + Z.of_nat (ushape u' ax) + 0)) (shp (gdata u')) /\
      forall ix, (ax < length ix)%nat -> (nth ax ix 0 < w + L + Z.of_nat n + H)%Z ->
       get d' ix = 
        let i := (nth ax ix 0 - (w + L))%Z in
        if (0 <=? i)%Z then get (gdata u') (upd ax i ix)
        else ghost_val t (-1) (nth ax (gstep (ggrid u)) 0%R) v
               (get (gdata u') (upd ax (ghost_src mode (w + L) (Z.of_nat n + H) i)%Z ix))) ->
    exists r, (let* data := d in Ok (mkga data (upd ax (offat u ax - inject_Z w) (goff u)) (ggrid u'))) = Ok r
      /\ ggrid r = ggrid u /\
    goff r = upd ax (offat u ax - inject_Z w) (goff u) /\
    shp (gdata r) = upd ax (Z.to_nat (w + L + Z.of_nat n + H)) (shp (gdata u)) /\
    forall ix, (ax < length ix)%nat -> (nth ax ix 0 < w + L + Z.of_nat n + H)%Z ->
      get (gdata r) ix =
        let i := (nth ax ix 0 - (w + L))%Z in
        if (0 <=? i)%Z then get (gdata u) (upd ax (i + L)%Z ix)
        else ghost_val t (-1) (nth ax (gstep (ggrid u)) 0%R) v
               (get (gdata u) (upd ax (ghost_src mode (w + L) (Z.of_nat n + H) i + L)%Z ix))).
  { intros d (d' & -> & Hsd & Hgd). cbn [bind]. eexists; split; [reflexivity|].
    cbn [ggrid goff gdata]. split; [auto|]. split; [reflexivity|]. split.
    - rewrite Hsd, Hs', upd_upd_same, Hsu. f_equal. lia.
    - intros ix Hix Hj. rewrite Hgd by auto. cbv zeta.
      rewrite !Hget' by (rewrite upd_length; auto).
      unfold shiftix. rewrite !nth_upd_same, !upd_upd_same by auto. reflexivity. }
  assert (Hsrc : forall ix, (nth ax ix 0 < w + L + Z.of_nat n + H)%Z ->
     ((0 <=? nth ax ix 0 - (w + L)) && (nth ax ix 0 - (w + L) <? Z.of_nat (ushape u' ax)))%Z = (0 <=? nth ax ix 0 - (w + L))%Z).
  { intros ix Hj. replace (nth ax ix 0 - (w + L) <? Z.of_nat (ushape u' ax))%Z with true by (symmetry; apply Z.ltb_lt; lia).
    apply andb_true_r. }
  destruct Hw as [Ht|Ht]; rewrite Ht in *; apply Hfin.
  - destruct (@pad_dirichlet_centred b u' ax (w + L) 0 mode 0) as (d & E & Hsd & Hgd); auto; try lia.
    { right; eauto. } { rewrite Z.add_0_r; auto. }
    exists d. split; [exact E|]. split; [exact Hsd|]. intros ix Hix Hj. rewrite Hgd. cbv zeta.
    rewrite Hsrc by auto. destruct (Z.leb_spec 0 (nth ax ix 0 - (w + L))%Z); [reflexivity|].
    replace (nth ax ix 0 - (w + L) <? 0)%Z with true by (symmetry; apply Z.ltb_lt; lia).
    rewrite Hv, Z.add_0_r. cbn [opt0 ghost_val]. do 4 f_equal. f_equal. lia.
  - destruct (@pad_neumann_centred b u' ax (w + L) 0 (- w) mode 0) as (d & E & Hsd & Hgd); auto; try lia.
    { right; eauto. } { rewrite Z.add_0_r; auto. }
    exists d. split; [exact E|]. split; [exact Hsd|]. intros ix Hix Hj. rewrite Hgd. cbv zeta.
    rewrite Hsrc by auto. destruct (Z.leb_spec 0 (nth ax ix 0 - (w + L))%Z); [reflexivity|].
    replace (nth ax ix 0 - (w + L) <? 0)%Z with true by (symmetry; apply Z.ltb_lt; lia).
    rewrite Hv, Z.add_0_r. cbn [opt0 ghost_val].
    replace (derivative_direction (- w)) with (-1)%R.
    2:{ unfold derivative_direction. replace (Z.max 1 (Z.abs (- w))) with w by lia.
        replace (- w / w)%Z with (-1)%Z; [reflexivity|].
        replace (- w)%Z with ((-1) * w)%Z by lia. rewrite Z.div_mul by lia. reflexivity. }
    rewrite Hg'. f_equal. do 4 f_equal. lia.
Qed.

Lemma wall_pad_upper b u w ax mode t L n H :
  snd (btype b ax) = t -> is_wall t -> (w + H = 0 \/ exists v, snd (bval b ax) = Some v)%Z ->
  (ax < gndim (ggrid u))%nat -> (ax < length (shp (gdata u)))%nat -> (ax < length (goff u))%nat ->
  offat u ax == (1 # 2) - inject_Z L -> (0 <= L)%Z -> (0 <= H)%Z ->
  gshp u ax = n -> (0 < n)%nat -> Z.of_nat (ushape u ax) = (L + Z.of_nat n + H)%Z ->
  (0 <= w)%Z -> (w = 0 -> H = 0)%Z -> mode_ok mode (w + H) ->
  exists r, bc_pad_ b u w ax mode = Ok r /\ ggrid r = ggrid u /\
    goff r = upd ax (offat u ax - inject_Z 0) (goff u) /\
    shp (gdata r) = upd ax (Z.to_nat (L + Z.of_nat n + H + w)) (shp (gdata u)) /\
    forall ix, (ax < length ix)%nat -> (0 <= nth ax ix 0 < L + Z.of_nat n + H + w)%Z ->
      get (gdata r) ix =
        let i := nth ax ix 0%Z in
        if (i <? L + Z.of_nat n)%Z then get (gdata u) (upd ax i ix)
        else ghost_val t 1 (nth ax (gstep (ggrid u)) 0%R) (opt0 (snd (bval b ax)))
               (get (gdata u) (upd ax (ghost_src mode (w + H) (L + Z.of_nat n) i)%Z ix)).
Proof.
  intros Hb Hw Hv Hd Hax Hol Ho HL HH Hg Hn Hs Hw1 Hw0 Hm.
  destruct (@trim_right_wall b u ax L n H) as (u' & Et & Hg' & Ho' & Hs' & Hoo & Hget'); auto.
  { rewrite Hb; apply is_wall_per; auto. }
  unfold bc_pad_.
  replace (ax <? gndim (ggrid u))%nat with true by (symmetry; apply Nat.ltb_lt; auto). cbn [negb].
  replace (w <? 0)%Z with false by (symmetry; apply Z.ltb_ge; lia).
  replace (0 <=? w)%Z with true by (symmetry; apply Z.leb_le; lia).
  rewrite Hb, (is_wall_per Hw). cbn [fst snd]. rewrite Et. cbn [bind fst snd].
  cbn [Z.add].
  assert (Hou : offat u' ax == (1 # 2) - inject_Z L) by (rewrite Ho'; auto).
  assert (Hsu : ushape u' ax = Z.to_nat (L + Z.of_nat n)).
  { unfold ushape. rewrite Hs', nth_upd_same by auto. reflexivity. }
  assert (Hfin : forall (d : result (arr R)),
    (exists d', d = Ok d' /\ shp d' = upd ax (Z.to_nat (0 + Z.of_nat (ushape u' ax) + (w + H))) (shp (gdata u')) /\
      forall ix, (ax < length ix)%nat -> (0 <= nth ax ix 0 < L + Z.of_nat n + H + w)%Z ->
       get d' ix = 
        let i := nth ax ix 0%Z in
        if (i <? L + Z.of_nat n)%Z then get (gdata u') (upd ax i ix)
        else ghost_val t 1 (nth ax (gstep (ggrid u)) 0%R) (opt0 (snd (bval b ax)))
               (get (gdata u') (upd ax (ghost_src mode (w + H) (L + Z.of_nat n) i)%Z ix))) ->
    exists r, (let* data := d in Ok (mkga data (upd ax (offat u ax - inject_Z 0) (goff u)) (ggrid u'))) = Ok r
      /\ ggrid r = ggrid u /\
    goff r = upd ax (offat u ax - inject_Z 0) (goff u) /\
    shp (gdata r) = upd ax (Z.to_nat (L + Z.of_nat n + H + w)) (shp (gdata u)) /\
    forall ix, (ax < length ix)%nat -> (0 <= nth ax ix 0 < L + Z.of_nat n + H + w)%Z ->
      get (gdata r) ix =
        let i := nth ax ix 0%Z in
        if (i <? L + Z.of_nat n)%Z then get (gdata u) (upd ax i ix)
        else ghost_val t 1 (nth ax (gstep (ggrid u)) 0%R) (opt0 (snd (bval b ax)))
               (get (gdata u) (upd ax (ghost_src mode (w + H) (L + Z.of_nat n) i)%Z ix))).
  { intros d (d' & -> & Hsd & Hgd). cbn [bind]. eexists; split; [reflexivity|].
    cbn [ggrid goff gdata]. split; [auto|]. split; [reflexivity|]. split.
    - rewrite Hsd, Hs', upd_upd_same, Hsu. f_equal. lia.
    - intros ix Hix Hj. rewrite Hgd by auto. cbv zeta.
      rewrite !Hget' by (rewrite upd_length; auto). reflexivity. }
  assert (Hsrc : forall ix, (0 <= nth ax ix 0 < L + Z.of_nat n + H + w)%Z ->
     ((0 <=? nth ax ix 0 - 0) && (nth ax ix 0 - 0 <? Z.of_nat (ushape u' ax)))%Z = (nth ax ix 0 <? L + Z.of_nat n)%Z).
  { intros ix Hj. rewrite Z.sub_0_r, Hsu, Z2Nat.id by lia.
    replace (0 <=? nth ax ix 0)%Z with true by (symmetry; apply Z.leb_le; lia). reflexivity. }
  assert (Hv' : (w + H)%Z = 0%Z \/ exists x, snd (bval b ax) = Some x) by exact Hv.
  destruct Hw as [Ht|Ht]; rewrite Ht in *; apply Hfin.
  - destruct (@pad_dirichlet_centred b u' ax 0 (w + H) mode L) as (d & E & Hsd & Hgd); auto; try lia.
    exists d. split; [exact E|]. split; [exact Hsd|]. intros ix Hix Hj. rewrite Hgd. cbv zeta.
    rewrite Hsrc by auto. rewrite Z.sub_0_r. destruct (Z.ltb_spec (nth ax ix 0%Z) (L + Z.of_nat n)); [reflexivity|].
    replace (nth ax ix 0 <? 0)%Z with false by (symmetry; apply Z.ltb_ge; lia).
    cbn [ghost_val]. do 4 f_equal. f_equal. lia.
  - destruct (@pad_neumann_centred b u' ax 0 (w + H) w mode L) as (d & E & Hsd & Hgd); auto; try lia.
    exists d. split; [exact E|]. split; [exact Hsd|]. intros ix Hix Hj. rewrite Hgd. cbv zeta.
    rewrite Hsrc by auto. rewrite Z.sub_0_r. destruct (Z.ltb_spec (nth ax ix 0%Z) (L + Z.of_nat n)); [reflexivity|].
    replace (nth ax ix 0 <? 0)%Z with false by (symmetry; apply Z.ltb_ge; lia).
    cbn [opt0 ghost_val]. assert (1 <= w)%Z by lia.
    replace (derivative_direction w) with 1%R.
    2:{ unfold derivative_direction. replace (Z.max 1 (Z.abs w)) with w by lia.
        rewrite Z.div_same by lia. reflexivity. }
    rewrite Hg'. f_equal. do 4 f_equal. lia.
Qed.
